(** The parallel echelon form: all schedules. *)
From Coq Require Import ZArith Arith List Bool Lia Znumtheory Setoid Morphisms Sorted.
From Verif Require Import ModInvModel ModInvProofs LinSpec LaSpec LaModel LaProofs LaRowProofs.
Import ListNotations.
Open Scope Z_scope.

Definition le_pivs (P Q : nat -> option srow) : Prop := forall c r, P c = Some r -> Q c = Some r.
Lemma le_pivs_refl P : le_pivs P P.
Proof. intros c r H. assumption. Qed.
Lemma le_pivs_trans P Q R : le_pivs P Q -> le_pivs Q R -> le_pivs P R.
Proof. intros H1 H2 c r H. auto. Qed.
Lemma le_pivs_none P Q c : le_pivs P Q -> P c <> None -> Q c <> None.
Proof. intros H HP. destruct (P c) as [r|] eqn:E; [|contradiction]. rewrite (H c r E). discriminate. Qed.
Lemma pset_of_mono P Q p v : le_pivs P Q -> span p (pset_of P) v -> span p (pset_of Q) v.
Proof. intros H. apply span_mono. intros u (c & r & E & ->). apply span_in. exists c, r. auto. Qed.
Lemma pset_fresh P c r : P c = None -> le_pivs P (pset P c r).
Proof. intros H c' r' E. unfold pset. destruct (Nat.eqb_spec c' c) as [->|]; [congruence|assumption]. Qed.

Definition budget (ncols : nat) : nat := ((ncols + 1) * (ncols + 3) + ncols + 3)%nat.

Definition rinv (k : kern) (p : Z) (ncl ncols : nat) (pivs : nat -> option srow) (v0 : vec) (m : nat) (s : rstate) : Prop :=
  match s with
  | Todo r => input_row p ncols r /\ v0 = rv r /\ m = budget ncols
  | Red i dr n => red_inv k p ncols i dr n /\ span p (pset_of pivs) (fun j => v0 j - dv dr j) /\
      (forall j, (j < i)%nat -> (j < ncl)%nat -> dv dr j = 0) /\
      exists b, (b <= ncols)%nat /\ (forall j, (j < b)%nat -> (j < i)%nat -> dv dr j = 0) /\ ((b <= i)%nat \/ b = S i /\ pivs i <> None) /\
      (m + b * (ncols + 3) = (ncols + 1) * (ncols + 3) + (ncols - i) + 2)%nat
  | Cas dr r => exists c r' b, r = (c, 1) :: r' /\ pivot_row p ncols c r /\ canon p r /\ (ncl <= c)%nat /\ length dr = ncols /\
      (forall j, 0 <= dv dr j < p) /\ (forall j, (j < c)%nat -> dv dr j = 0) /\
      span p (pset_of pivs) (fun j => v0 j - dv dr j) /\
      (exists a, forall j, eqp p (dv dr j) (a * rv r j)) /\ (exists y, forall j, eqp p (rv r j) (y * dv dr j)) /\
      (b <= c)%nat /\ (m + b * (ncols + 3) = (ncols + 1) * (ncols + 3) + 1)%nat
  | DoneZero => span p (pset_of pivs) v0
  | DonePiv c => pivs c <> None /\ span p (pset_of pivs) v0
  end.

Lemma rinv_mono k p ncl ncols P Q v0 m s : le_pivs P Q -> rinv k p ncl ncols P v0 m s -> rinv k p ncl ncols Q v0 m s.
Proof.
  intros HL. destruct s as [r|i dr n|dr r| |c]; cbn [rinv].
  - auto.
  - intros (H1 & H2 & H3 & b & H4 & H5 & H6 & H7). split; [assumption|]. split; [eapply pset_of_mono; eassumption|]. split; [assumption|].
    exists b. split; [assumption|]. split; [assumption|]. split; [|assumption]. destruct H6 as [H6|(H6 & H8)]; [left; assumption|right].
    split; [assumption|]. eapply le_pivs_none; eassumption.
  - intros (c & r' & b & H1 & H2 & HC & H3 & H4 & H5 & H6 & H7 & H8). exists c, r', b. do 7 (split; [assumption|]). split; [eapply pset_of_mono; eassumption|assumption].
  - apply pset_of_mono. assumption.
  - intros (H1 & H2). split; [eapply le_pivs_none; eassumption|eapply pset_of_mono; eassumption].
Qed.

Lemma rinv_pos k p ncl ncols P v0 m s : rinv k p ncl ncols P v0 m s -> finished s = false -> (0 < m)%nat.
Proof.
  destruct s as [r|i dr n|dr r| |c]; cbn [rinv finished]; intros H Hf; try discriminate.
  - destruct H as (_ & _ & ->). unfold budget. lia.
  - destruct H as (_ & _ & _ & b & Hb & _ & _ & E). nia.
  - destruct H as (c & r' & b & _ & HP & _ & _ & _ & _ & _ & _ & _ & _ & Hb & E).
    assert (c < ncols)%nat. { destruct HP as (_ & _ & HL & r2 & E2 & _). apply (HL (c, 1)). rewrite E2. left. reflexivity. }
    nia.
Qed.

Lemma row_step_ok k p ncl ncols pivs v0 m s : prime p -> kern_ok k p -> kroom k p (S ncols) -> pivots_ok p ncols pivs ->
  (forall c, (c < ncl)%nat -> pivs c <> None) -> (ncl <= ncols)%nat -> rinv k p ncl ncols pivs v0 m s ->
  exists pivs' s' m', row_step k p ncl ncols pivs s = Some (pivs', s') /\ rinv k p ncl ncols pivs' v0 m' s' /\
  (finished s = false -> finished s' = true \/ (m' < m)%nat) /\ (finished s = true -> s' = s) /\
  le_pivs pivs pivs' /\ pivots_ok p ncols pivs' /\
  (forall c r, pivs' c = Some r -> pivs c = Some r \/ span p (fun v => pset_of pivs v \/ v = v0) (rv r)).
Proof.
  intros HP HK HR HPv Hncl Hle HI. assert (Hp2 : 2 <= p) by apply HK. destruct s as [r|i dr n|dr r| |c]; cbn [row_step].
  - (* Todo *)
    destruct HI as ((ND & HC & HL & t0 & r' & Er & Hmin) & -> & ->). rewrite Er. rewrite <- Er.
    destruct (scatter_ok p ncols r Hp2 ND HC HL) as (dr & E & L & V & B). rewrite E. cbn [obind].
    assert (Hin : In t0 r) by (rewrite Er; left; reflexivity).
    assert (Hz : forall j, (j < fst t0)%nat -> dv dr j = 0).
    { intros j Hj. rewrite V. apply rv_notin. intros Hi. apply in_map_iff in Hi. destruct Hi as (t & <- & Ht). specialize (Hmin t Ht). lia. }
    assert (Hic : (fst t0 < ncols)%nat) by auto.
    exists pivs, (Red (fst t0) dr 0), ((ncols + 1) * (ncols + 3) + (ncols - fst t0) + 2)%nat. split; [reflexivity|]. split.
    + split; [|split; [|split; [intros; auto|]]].
      * split; [lia|]. split; [assumption|]. split; [intros; apply B|]. split.
        -- intros j. specialize (B j). pose proof (kern_pp k p HK). assert (p * p <= kb k p (S (fst t0))) by (destruct k; cbn [kb]; nia). nia.
        -- symmetry. apply nzc_0. assumption.
      * apply span_veq0. intros j. rewrite V. exists 0. unfold vzero. ring.
      * exists O. split; [lia|]. split; [intros; lia|]. split; [left; lia|]. lia.
    + split; [intros _; right; unfold budget; lia|]. split; [discriminate|]. split; [apply le_pivs_refl|]. split; [assumption|]. auto.
  - (* Red *)
    destruct HI as (HI & HS & HZ & b & Hb & Hbz & Hbi & Hm). destruct (Nat.ltb_spec i ncols) as [Hi|Hi].
    + destruct (col_step_inv k p ncols pivs i dr n HK HR HPv HI Hi) as (dr' & bb & -> & I' & LT & ZP & SP). cbn [obind fst snd].
      exists pivs, (Red (S i) dr' (if bb then S n else n)), (m - 1)%nat. split; [reflexivity|]. split.
      * split; [assumption|]. split; [|split].
        -- eapply span_eq; [apply (span_add _ _ _ _ HS SP)|]. intros j. exists 0. ring.
        -- intros j Hj1 Hj2. destruct (Nat.eq_dec j i) as [->|]; [apply ZP, Hncl; assumption|]. rewrite LT by lia. apply HZ; lia.
        -- exists b. split; [assumption|]. split; [|split; [left; destruct Hbi as [|(? & _)]; lia|nia]].
           intros j Hj1 Hj2. destruct (Nat.eq_dec j i) as [->|].
           ++ destruct Hbi as [Hbi|(Hbi & Hpi)]; [lia|auto].
           ++ rewrite LT by lia. apply Hbz; lia.
      * split; [intros _; right; nia|]. split; [discriminate|]. split; [apply le_pivs_refl|]. split; [assumption|]. auto.
    + destruct HI as (Hi2 & L & B & _ & N). replace i with ncols in * by lia.
      assert (HB : forall j, 0 <= dv dr j < p).
      { intros j. destruct (Nat.lt_ge_cases j ncols); [apply B; assumption|]. rewrite dv_overflow by lia. lia. }
      destruct n as [|n].
      * exists pivs, DoneZero, O. split; [reflexivity|]. split.
        -- cbn [rinv]. eapply span_eq; [exact HS|]. intros j.
           assert (dv dr j = 0) as ->; [|exists 0; ring]. destruct (Nat.lt_ge_cases j ncols); [|apply dv_overflow; lia].
           apply (nzc_0_inv ncols); [symmetry; assumption|assumption].
        -- split; [intros _; left; reflexivity|]. split; [discriminate|]. split; [apply le_pivs_refl|]. split; [assumption|]. auto.
      * assert (Hz : forall j, (j < ncl)%nat -> dv dr j = 0) by (intros j Hj; apply HZ; lia).
        destruct (gather_row_ok k p ncl (S n) dr (bits_ok k p HK) HB Hz) as (r & -> & C & V & T & Lr); [rewrite L; symmetry; assumption|].
        cbn [obind]. destruct r as [|[c x] r]; [discriminate|].
        assert (Hc : (ncl <= c < ncols)%nat) by (rewrite <- L; apply (T (c, x)); left; reflexivity).
        assert (Hlead : forall j, (j < c)%nat -> dv dr j = 0) by (intros j Hj; rewrite <- V; apply (canon_lead p r (c, x)); assumption).
        assert (Hx : 0 < x < p) by (destruct C as (_ & C); apply (C (c, x)); left; reflexivity).
        assert (Hxc : dv dr c = x).
        { rewrite <- V. apply (rv_in ((c, x) :: r) (c, x)); [apply sorted_nodup, C|left; reflexivity]. }
        assert (Hbc : (b <= c)%nat). { destruct (Nat.lt_ge_cases c b); [|assumption]. specialize (Hbz c H). rewrite Hbz in Hxc; lia. }
        assert (Hmm : (m - 1 + b * (ncols + 3) = (ncols + 1) * (ncols + 3) + 1)%nat) by nia.
        destruct (Z.eqb_spec x 1) as [Ex|Ex].
        -- exists pivs, (Cas dr ((c, x) :: r)), (m - 1)%nat. split; [reflexivity|]. split.
           ++ exists c, r, b. rewrite Ex in *. split; [reflexivity|]. split; [|split; [assumption|split; [lia|split; [assumption|split; [assumption|split; [assumption|split; [assumption|]]]]]]].
              ** apply (canon_pivot p ncols r (c, 1)); auto. intros u Hu. specialize (T u Hu). lia.
              ** split; [exists 1; intros j; rewrite V; exists 0; ring|]. split; [exists 1; intros j; rewrite V; exists 0; ring|]. auto.
           ++ split; [intros _; right; nia|]. split; [discriminate|]. split; [apply le_pivs_refl|]. split; [assumption|]. auto.
        -- destruct (normalize_canon k p (c, x) r HP HK C) as (r' & y & -> & Hy & Hm1 & C' & M' & V'). cbn [obind fst] in *.
           exists pivs, (Cas dr ((c, 1) :: r')), (m - 1)%nat. split; [reflexivity|]. split.
           ++ exists c, r', b. split; [reflexivity|]. split; [|split; [assumption|split; [lia|split; [assumption|split; [assumption|split; [assumption|split; [assumption|]]]]]]].
              ** apply (canon_pivot p ncols r' (c, 1)); auto. intros u [<-|Hu]; [cbn; lia|].
                 assert (Hu' : In (fst u) (map fst r)) by (rewrite <- M'; apply in_map; assumption). apply in_map_iff in Hu'. destruct Hu' as (w & <- & Hw).
                 specialize (T w (or_intror Hw)). lia.
              ** split; [exists x; intros j; rewrite V', V|split; [exists y; intros j; rewrite V', V; reflexivity|auto]].
                 rewrite Z.mul_assoc, (Z.mul_comm x y). cbn [snd] in Hm1. rewrite Hm1. exists 0. ring.
           ++ split; [intros _; right; nia|]. split; [discriminate|]. split; [apply le_pivs_refl|]. split; [assumption|]. auto.
  - (* Cas *)
    destruct HI as (c & r' & b & Er & Hpr & HC & Hc & L & B & Hz & HS & (a & Ha) & (y & Hy) & Hbc & Hm). rewrite Er. rewrite <- Er. cbn [fst].
    assert (Hcn : (c < ncols)%nat). { destruct Hpr as (_ & _ & HL & _). apply (HL (c, 1)). rewrite Er. left. reflexivity. }
    destruct (pivs c) as [q|] eqn:Ep.
    + exists pivs, (Red c dr 0), ((ncols + 1 - S c) * (ncols + 3) + (ncols - c) + 2)%nat. split; [reflexivity|]. split.
      * split; [|split; [assumption|split; [intros; auto|]]].
        -- split; [lia|]. split; [assumption|]. split; [intros; apply B|]. split.
           ++ intros j. specialize (B j). pose proof (kern_pp k p HK). assert (p * p <= kb k p (S c)) by (destruct k; cbn [kb]; nia). nia.
           ++ symmetry. apply nzc_0. assumption.
        -- exists (S c). split; [lia|]. split; [intros; apply Hz; lia|]. split; [right; split; [reflexivity|congruence]|]. nia.
      * split; [intros _; right; nia|]. split; [discriminate|]. split; [apply le_pivs_refl|]. split; [assumption|]. auto.
    + assert (HLe := pset_fresh pivs c r Ep).
      exists (pset pivs c r), (DonePiv c), O. split; [reflexivity|]. split; [|split; [intros _; left; reflexivity|split; [discriminate|split; [assumption|split]]]].
      * cbn [rinv]. split; [unfold pset; rewrite Nat.eqb_refl; discriminate|].
        eapply span_eq; [apply (span_add p _ (fun j => v0 j - dv dr j) (fun j => a * rv r j))|].
        -- eapply pset_of_mono; eassumption.
        -- apply span_scale, span_in. exists c, r. split; [unfold pset; rewrite Nat.eqb_refl; reflexivity|reflexivity].
        -- intros j. rewrite <- Ha. exists 0. ring.
      * intros c' r2. unfold pset. destruct (Nat.eqb_spec c' c) as [->|]; [intros [= <-]; assumption|apply HPv].
      * intros c' r2. unfold pset. destruct (Nat.eqb_spec c' c) as [->|]; [intros [= <-]; right|auto].
        eapply span_eq with (u := fun j => y * dv dr j); [|intros j; symmetry; apply Hy]. apply span_scale.
        eapply span_eq with (u := fun j => v0 j - (v0 j - dv dr j)); [|intros j; exists 0; ring].
        apply span_sub; [apply span_in; auto|]. eapply span_mono; [|exact HS]. intros u Hu. apply span_in. auto.
  - exists pivs, DoneZero, O. split; [reflexivity|]. split; [assumption|]. split; [discriminate|]. split; [auto|]. split; [apply le_pivs_refl|]. auto.
  - exists pivs, (DonePiv c), O. split; [reflexivity|]. split; [assumption|]. split; [discriminate|]. split; [auto|]. split; [apply le_pivs_refl|]. auto.
Qed.

(** ** All rows *)
Definition sinv (k : kern) (p : Z) (ncl ncols : nat) (rr : nat -> option srow) (tr : list srow) (cnt : nat -> nat) (s : shared) : Prop :=
  pivots_ok p ncols (sh_pivs s) /\ le_pivs rr (sh_pivs s) /\
  (forall c r, sh_pivs s c = Some r -> span p (gens rr tr) (rv r)) /\
  length (sh_rows s) = length tr /\
  forall t rs, nth_error (sh_rows s) t = Some rs -> exists r0 m, nth_error tr t = Some r0 /\ rinv k p ncl ncols (sh_pivs s) (rv r0) m rs /\
  (finished rs = true \/ (m + cnt t <= budget ncols)%nat).

Lemma nth_error_lset {A} (l : list A) : forall i x t, nth_error (lset l i x) t = if ((t =? i) && (i <? length l))%nat%bool then Some x else nth_error l t.
Proof.
  induction l as [|y l IH]; intros [|i] x [|t]; cbn [lset nth_error length]; try reflexivity.
  - rewrite andb_comm. reflexivity.
  - rewrite IH. reflexivity.
Qed.
Lemma lset_length {A} (l : list A) : forall i x, length (lset l i x) = length l.
Proof. induction l as [|y l IH]; intros [|i] x; cbn; auto. Qed.

Lemma sys_step_ok k p ncl ncols rr tr cnt t s : prime p -> kern_ok k p -> kroom k p (S ncols) -> (ncl <= ncols)%nat ->
  (forall c, (c < ncl)%nat -> rr c <> None) -> sinv k p ncl ncols rr tr cnt s ->
  exists s', sys_step k p ncl ncols t s = Some s' /\ sinv k p ncl ncols rr tr (fun u => if (u =? t)%nat then S (cnt u) else cnt u) s'.
Proof.
  intros HP HK HR Hle Hrr (HPv & HL & HG & Hlen & HRows). unfold sys_step. destruct (nth_error (sh_rows s) t) as [rs|] eqn:Et.
  - destruct (HRows t rs Et) as (r0 & m & Er0 & HI & HF).
    destruct (row_step_ok k p ncl ncols (sh_pivs s) (rv r0) m rs HP HK HR HPv) as (P' & s' & m' & -> & HI' & Hdec & Hfin & HL' & HPv' & HG'); auto.
    { intros c Hc. eapply le_pivs_none; [exact HL|auto]. }
    cbn [obind fst snd]. eexists. split; [reflexivity|]. unfold sinv. cbn [sh_pivs sh_rows]. split; [assumption|]. split; [eapply le_pivs_trans; eassumption|].
    split; [|split; [rewrite lset_length; assumption|]].
    + intros c r Hc. destruct (HG' c r Hc) as [Hc'|Hsp]; [eauto|]. eapply span_mono; [|exact Hsp].
      intros u [(c2 & r2 & E2 & ->)| ->]; [eauto|]. apply span_in. right. exists r0. split; [eapply nth_error_In; eassumption|reflexivity].
    + intros t' rs'. rewrite nth_error_lset. destruct (Nat.eqb_spec t' t) as [->|Hne]; cbn [andb].
      * destruct (Nat.ltb_spec t (length (sh_rows s))) as [_|Hbad]; [|apply nth_error_None in Hbad; congruence].
        intros [= <-]. exists r0, m'. split; [assumption|]. split; [assumption|].
        destruct (finished rs) eqn:Ef; [left; rewrite Hfin by reflexivity; assumption|]. destruct (Hdec eq_refl) as [Hd|Hd]; [left; assumption|right].
        destruct HF as [HF|HF]; [discriminate|]. lia.
      * intros Et'. destruct (HRows t' rs' Et') as (r1 & m1 & E1 & I1 & F1). exists r1, m1. split; [assumption|]. split; [eapply rinv_mono; eassumption|assumption].
  - exists s. split; [reflexivity|]. split; [assumption|]. split; [assumption|]. split; [assumption|]. split; [assumption|].
    intros t' rs' Et'. destruct (Nat.eqb_spec t' t) as [->|]; [congruence|]. apply HRows. assumption.
Qed.
Lemma sys_run_ok k p ncl ncols rr tr : prime p -> kern_ok k p -> kroom k p (S ncols) -> (ncl <= ncols)%nat ->
  (forall c, (c < ncl)%nat -> rr c <> None) -> forall sched cnt s, sinv k p ncl ncols rr tr cnt s ->
  exists s', sys_run k p ncl ncols sched s = Some s' /\ sinv k p ncl ncols rr tr (fun u => (cnt u + count_occ Nat.eq_dec sched u)%nat) s'.
Proof.
  intros HP HK HR Hle Hrr. induction sched as [|t ts IH]; intros cnt s HI; cbn [sys_run].
  - exists s. split; [reflexivity|]. destruct HI as (H1 & H2 & H3 & H4 & H5). do 4 (split; [assumption|]). intros t rs Et. destruct (H5 t rs Et) as (r0 & m & ? & ? & ?).
    exists r0, m. cbn. rewrite Nat.add_0_r. auto.
  - destruct (sys_step_ok k p ncl ncols rr tr cnt t s HP HK HR Hle Hrr HI) as (s1 & -> & I1). cbn [obind].
    destruct (IH _ _ I1) as (s2 & -> & I2). exists s2. split; [reflexivity|]. destruct I2 as (H1 & H2 & H3 & H4 & H5). do 4 (split; [assumption|]).
    intros u rs Eu. destruct (H5 u rs Eu) as (r0 & m & ? & ? & H6). exists r0, m. split; [assumption|]. split; [assumption|].
    destruct H6 as [H6|H6]; [left; assumption|right]. cbn [count_occ]. destruct (Nat.eqb_spec u t) as [Eut|Eut]; destruct (Nat.eq_dec t u); try congruence; lia.
Qed.
Lemma init_sinv k p ncl ncols rr tr : matrix_ok p ncl ncols rr tr -> sinv k p ncl ncols rr tr (fun _ => O) (init_shared rr tr).
Proof.
  intros (H1 & H2 & H3 & H4). split; [assumption|]. split; [apply le_pivs_refl|]. split; [|split; [apply map_length|]].
  - intros c r Hc. apply span_in. left. exists c, r. auto.
  - cbn [init_shared sh_rows sh_pivs]. intros t rs Et. rewrite nth_error_map in Et. destruct (nth_error tr t) as [r|] eqn:E; cbn in Et; [|discriminate].
    injection Et as <-. exists r, (budget ncols). split; [reflexivity|]. split; [|right; lia]. cbn [rinv]. split; [apply H4; eapply nth_error_In; eassumption|]. auto.
Qed.
Lemma run_ok k p ncl ncols rr tr sched : prime p -> kern_ok k p -> kroom k p (S ncols) -> matrix_ok p ncl ncols rr tr ->
  exists s, sys_run k p ncl ncols sched (init_shared rr tr) = Some s /\
  sinv k p ncl ncols rr tr (fun u => count_occ Nat.eq_dec sched u) s.
Proof.
  intros HP HK HR HM. destruct (sys_run_ok k p ncl ncols rr tr HP HK HR) with (sched := sched) (cnt := fun _ : nat => O) (s := init_shared rr tr) as (s & E & I).
  - apply HM.
  - intros c. apply HM.
  - apply init_sinv. assumption.
  - exists s. auto.
Qed.
Lemma finished_span k p ncl ncols rr tr cnt s : sinv k p ncl ncols rr tr cnt s -> forallb finished (sh_rows s) = true ->
  same_span p (gens rr tr) (pset_of (sh_pivs s)).
Proof.
  intros (H1 & H2 & H3 & H4 & H5) HF v. split; apply span_mono.
  - intros u [(c & r & Ec & ->)|(r & Hr & ->)]; [apply span_in; exists c, r; auto|].
    apply In_nth_error in Hr. destruct Hr as (t & Et).
    destruct (nth_error (sh_rows s) t) as [rs|] eqn:Es.
    + destruct (H5 t rs Es) as (r0 & m & E0 & HI & _). assert (r0 = r) by congruence. subst r0.
      rewrite forallb_forall in HF. assert (Hfin := HF rs (nth_error_In _ _ Es)). destruct rs; cbn in Hfin; try discriminate; cbn [rinv] in HI; [assumption|apply HI].
    + apply nth_error_None in Es. rewrite H4 in Es. apply nth_error_None in Es. congruence.
  - intros u (c & r & Ec & ->). eauto.
Qed.
Lemma enough_steps k p ncl ncols rr tr cnt s : sinv k p ncl ncols rr tr cnt s -> (forall t, (t < length tr)%nat -> (budget ncols <= cnt t)%nat) ->
  forallb finished (sh_rows s) = true.
Proof.
  intros (H1 & H2 & H3 & H4 & H5) Hc. apply forallb_forall. intros rs Hin. apply In_nth_error in Hin. destruct Hin as (t & Et).
  destruct (H5 t rs Et) as (r0 & m & E0 & HI & [HF|HF]); [assumption|]. destruct (finished rs) eqn:Ef; [reflexivity|].
  apply rinv_pos in HI; [|assumption]. assert (t < length tr)%nat by (apply nth_error_Some; congruence). specialize (Hc t H). lia.
Qed.

(** ** Echelon families of rows *)
Definition rvo (o : option srow) : vec := match o with Some r => rv r | None => vzero end.
Fixpoint comb (P : nat -> option srow) (a : nat -> Z) (n : nat) : vec :=
  fun j => match n with O => 0 | S n' => a n' * rvo (P n') j + comb P a n' j end.
Lemma comb_lin P p a b x n j : eqp p (comb P (fun c => x * a c + b c) n j) (x * comb P a n j + comb P b n j).
Proof. induction n as [|n IH]; cbn [comb]; [exists 0; ring|]. rewrite IH. exists 0. ring. Qed.
Lemma comb_single P p a n c j : (c < n)%nat -> (forall c', (c' < n)%nat -> c' <> c -> eqp p (a c' * rvo (P c') j) 0) -> eqp p (comb P a n j) (a c * rvo (P c) j).
Proof.
  intros Hc H. assert (G : forall n', (n' <= n)%nat -> eqp p (comb P a n' j) (if (c <? n')%nat then a c * rvo (P c) j else 0)).
  { induction n' as [|n' IH]; intros Hn; cbn [comb]; [reflexivity|]. rewrite IH by lia. destruct (Nat.ltb_spec c n'); destruct (Nat.ltb_spec c (S n')); try lia.
    - rewrite H by lia. exists 0. ring.
    - replace n' with c by lia. exists 0. ring.
    - rewrite H by lia. exists 0. ring. }
  specialize (G n (le_n n)). rewrite (proj2 (Nat.ltb_lt c n) Hc) in G. assumption.
Qed.
Lemma comb_zero P p a n j : (forall c', (c' < n)%nat -> eqp p (a c' * rvo (P c') j) 0) -> eqp p (comb P a n j) 0.
Proof. induction n as [|n IH]; intros H; cbn [comb]; [reflexivity|]. rewrite IH by auto. rewrite H by lia. reflexivity. Qed.
Lemma span_comb p n P v : pivots_ok p n P -> span p (pset_of P) v -> exists a, forall j, eqp p (v j) (comb P a n j).
Proof.
  intros HP. apply (span_ind_lin p (pset_of P) (fun v => exists a, forall j, eqp p (v j) (comb P a n j))).
  - intros u (c & r & E & ->). exists (fun c' => if (c' =? c)%nat then 1 else 0). intros j.
    assert (Hc : (c < n)%nat). { destruct (HP c r E) as (_ & _ & HL & r' & -> & _). apply (HL (c, 1)). left. reflexivity. }
    rewrite (comb_single P p _ n c j Hc).
    + rewrite Nat.eqb_refl, E. cbn [rvo]. exists 0. ring.
    + intros c' _ Hne. destruct (Nat.eqb_spec c' c); [contradiction|]. exists 0. ring.
  - exists (fun _ => 0). intros j. symmetry. apply comb_zero. intros. exists 0. ring.
  - intros x u w (a & Ha) (b & Hb). exists (fun c => x * a c + b c). intros j. rewrite comb_lin, <- Ha, <- Hb. reflexivity.
  - intros u w (a & Ha) E. exists a. intros j. rewrite <- (E j). apply Ha.
Qed.
Lemma rvo_below p n P c j : pivots_ok p n P -> (j < c)%nat -> rvo (P c) j = 0.
Proof. intros HP Hj. destruct (P c) as [r|] eqn:E; [|reflexivity]. cbn [rvo]. eapply pivot_below; [eapply HP; eassumption|assumption]. Qed.
Lemma comb_coefs p n P a v m : pivots_ok p n P -> (forall j, eqp p (v j) (comb P a n j)) ->
  (forall c, (c < m)%nat -> P c <> None -> eqp p (v c) 0) -> forall c, (c < m)%nat -> P c <> None -> eqp p (a c) 0.
Proof.
  intros HP Hv Hz c. induction c as [c IH] using lt_wf_ind. intros Hcm Hc. destruct (P c) as [r|] eqn:E; [|contradiction].
  assert (Hcn : (c < n)%nat). { destruct (HP c r E) as (_ & _ & HL & r' & -> & _). apply (HL (c, 1)). left. reflexivity. }
  assert (H : eqp p (v c) (a c * rvo (P c) c)).
  { rewrite Hv. apply comb_single; [assumption|]. intros c' Hc' Hne. destruct (Nat.lt_ge_cases c' c) as [Hl|Hg].
    - destruct (P c') as [r'|] eqn:E'; [|cbn [rvo]; exists 0; unfold vzero; ring]. rewrite (IH c') by (try lia; congruence). exists 0. ring.
    - rewrite (rvo_below p n P c' c) by (auto; lia). exists 0. ring. }
  rewrite Hz in H by congruence. rewrite E in H. cbn [rvo] in H. rewrite (pivot_lead p n c r) in H by auto. rewrite H. exists 0. ring.
Qed.
Lemma span_pivots_zero p n P v : pivots_ok p n P -> span p (pset_of P) v -> (forall c, P c <> None -> eqp p (v c) 0) -> forall j, eqp p (v j) 0.
Proof.
  intros HP Hv Hz j. destruct (span_comb p n P v HP Hv) as (a & Ha). rewrite Ha. apply comb_zero. intros c Hc.
  destruct (P c) as [r|] eqn:E; [|cbn [rvo]; exists 0; unfold vzero; ring].
  rewrite (comb_coefs p n P a v n HP Ha) by (auto; congruence). exists 0. ring.
Qed.
Lemma span_restrict p n P v m : pivots_ok p n P -> span p (pset_of P) v -> (forall c, (c < m)%nat -> P c <> None -> eqp p (v c) 0) ->
  span p (pset_of (drop_old m P)) v.
Proof.
  intros HP Hv Hz. destruct (span_comb p n P v HP Hv) as (a & Ha).
  eapply span_eq; [|intros j; symmetry; apply Ha].
  assert (G : forall n', span p (pset_of (drop_old m P)) (comb P a n')); [|apply G].
  induction n' as [|n' IH]; [apply span_zero|].
  change (comb P a (S n')) with (fun j => a n' * rvo (P n') j + comb P a n' j).
  apply (span_add p _ (fun j => a n' * rvo (P n') j)); [|assumption].
  destruct (P n') as [r|] eqn:E.
  - destruct (Nat.lt_ge_cases n' m) as [Hl|Hg].
    + apply span_veq0. intros j. rewrite (comb_coefs p n P a v m HP Ha Hz) by (auto; congruence). exists 0. unfold vzero. ring.
    + apply span_scale, span_in. exists n', r. split; [|reflexivity]. unfold drop_old. destruct (Nat.ltb_spec n' m); [lia|assumption].
  - apply span_veq0. intros j. cbn [rvo]. exists 0. unfold vzero. ring.
Qed.

(** Reduced echelon families with the same span are equal *)
Lemma span_at p (S : vec -> Prop) v c : span p S v -> (forall u, S u -> eqp p (u c) 0) -> eqp p (v c) 0.
Proof.
  intros Hv H. revert v Hv. apply span_ind_lin.
  - assumption.
  - reflexivity.
  - intros a u w Hu Hw. rewrite Hu, Hw. exists 0. ring.
  - intros u w Hu E. rewrite <- (E c). assumption.
Qed.
Lemma same_leads p n P Q c : 2 <= p -> pivots_ok p n P -> pivots_ok p n Q -> same_span p (pset_of P) (pset_of Q) -> P c <> None -> Q c <> None.
Proof.
  intros Hp HP HQ HS Hc HQc. destruct (P c) as [r|] eqn:E; [|contradiction].
  assert (Hr : span p (pset_of Q) (rv r)) by (apply HS, span_in; exists c, r; auto).
  assert (Hlow : forall j, (j < c)%nat -> rv r j = 0) by (intros; eapply pivot_below; eauto).
  apply (span_restrict p n Q _ c HQ) in Hr; [|intros j Hj _; rewrite Hlow by assumption; reflexivity].
  apply (span_at p _ _ c) in Hr.
  - rewrite (pivot_lead p n c r) in Hr by auto. apply eqp_0_small in Hr; lia.
  - intros u (c' & r' & E' & ->). unfold drop_old in E'. destruct (Nat.ltb_spec c' c); [discriminate|].
    destruct (Nat.eq_dec c' c) as [->|]; [congruence|]. rewrite (pivot_below p n c' r') by (eauto; lia). reflexivity.
Qed.
Lemma reduced_unique p n P Q : 2 <= p -> reduced_family p n P -> reduced_family p n Q -> same_span p (pset_of P) (pset_of Q) -> forall c, P c = Q c.
Proof.
  intros Hp (HP & RP) (HQ & RQ) HS c. assert (HS' : same_span p (pset_of Q) (pset_of P)) by (intros v; symmetry; apply HS).
  destruct (P c) as [r|] eqn:E.
  - assert (Q c <> None) by (apply (same_leads p n P Q c); auto; congruence). destruct (Q c) as [q|] eqn:E'; [|contradiction].
    f_equal. destruct (RP c r E) as (C1 & Z1). destruct (RQ c q E') as (C2 & Z2). apply (canon_eq p); auto.
    intros j. assert (D : eqp p (rv r j - rv q j) 0).
    { apply (span_pivots_zero p n Q (fun j => rv r j - rv q j) HQ).
      - apply span_sub; [apply HS|]; apply span_in; eexists _, _; eauto.
      - intros c' Hc'. assert (P c' <> None) by (apply (same_leads p n Q P c'); auto).
        destruct (Nat.eq_dec c' c) as [->|Hne].
        + rewrite (pivot_lead p n c r), (pivot_lead p n c q) by auto. reflexivity.
        + rewrite Z1, Z2 by auto. reflexivity. }
    assert (B : forall r0, canon p r0 -> 0 <= rv r0 j < p).
    { intros r0 C0. destruct (in_dec Nat.eq_dec j (map fst r0)) as [Hin|Hn].
      - apply in_map_iff in Hin. destruct Hin as (t & <- & Ht). rewrite rv_in by (auto; apply sorted_nodup, C0). destruct C0 as (_ & C0). specialize (C0 t Ht). lia.
      - rewrite rv_notin by assumption. lia. }
    apply (eqp_small p); auto. destruct D as (x & D). exists x. lia.
  - destruct (Q c) as [q|] eqn:E'; [|reflexivity]. exfalso. apply (same_leads p n Q P c); auto. congruence.
Qed.

(** ** Inter-reduction *)
Lemma red_loop_ext k p P Q cnt : forall i dr n, (forall j, (i <= j)%nat -> P j = Q j) -> red_loop k p P cnt i dr n = red_loop k p Q cnt i dr n.
Proof.
  induction cnt as [|cnt IH]; intros i dr n H; cbn [red_loop]; [reflexivity|]. rewrite H by lia.
  destruct (col_step k p (Q i) i dr) as [s|]; cbn [obind]; [|reflexivity]. apply IH. intros j Hj. apply H. lia.
Qed.
Lemma canon_head p r c : canon p r -> (forall j, (j < c)%nat -> rv r j = 0) -> rv r c = 1 -> exists r', r = (c, 1) :: r'.
Proof.
  intros HC Hz H1. destruct r as [|t r]; [cbn in H1; lia|]. assert (Hnd : NoDup (map fst (t :: r))) by apply sorted_nodup, HC.
  assert (Ht := rv_in (t :: r) t Hnd (or_introl eq_refl)). assert (Hpos : 0 < snd t < p) by (apply HC; left; reflexivity).
  assert (Hge : (c <= fst t)%nat). { destruct (Nat.lt_ge_cases (fst t) c) as [Hl|]; [|assumption]. rewrite (Hz _ Hl) in Ht. lia. }
  assert (Hle : (fst t <= c)%nat). { destruct (Nat.lt_ge_cases c (fst t)) as [Hl|]; [|assumption]. rewrite (canon_lead p r t HC c Hl) in H1. lia. }
  assert (fst t = c) by lia. exists r. destruct t as [c0 x]. cbn [fst snd] in *. subst c0. rewrite H1 in Ht. subst x. reflexivity.
Qed.
Fixpoint rows_desc (ncl : nat) (P : nat -> option srow) (cnt : nat) : list srow :=
  match cnt with O => [] | S n => match P (ncl + n)%nat with Some r => r :: rows_desc ncl P n | None => rows_desc ncl P n end end.
Definition clean_from (p : Z) (m : nat) (P : nat -> option srow) : Prop :=
  forall c r, (m <= c)%nat -> P c = Some r -> canon p r /\ forall c', c' <> c -> P c' <> None -> rv r c' = 0.
Lemma interreduce_ok k p ncl ncols : kern_ok k p -> kroom k p (S ncols) -> forall cnt P, (ncl + cnt <= ncols)%nat -> pivots_ok p ncols P ->
  clean_from p (ncl + cnt) P -> (forall c, P c <> None -> (ncl <= c)%nat) ->
  exists l Q, interreduce k p ncl ncols cnt P = Some l /\ pivots_ok p ncols Q /\ clean_from p ncl Q /\ (forall c, P c = None <-> Q c = None) /\
  same_span p (pset_of P) (pset_of Q) /\ (forall c, (ncl + cnt <= c)%nat -> Q c = P c) /\ l = rows_desc ncl Q cnt.
Proof.
  intros HK HR. assert (Hp2 : 2 <= p) by apply HK. induction cnt as [|cnt IH]; intros P Hcn HP HC Hdom; cbn [interreduce rows_desc].
  - rewrite Nat.add_0_r in *. exists [], P. split; [reflexivity|]. split; [assumption|]. split; [assumption|]. split; [tauto|]. split; [intros v; tauto|]. auto.
  - set (c := (ncl + cnt)%nat) in *. destruct (P c) as [r|] eqn:E.
    2:{ destruct (IH P) as (l & Q & El & Q1 & Q2 & Q3 & Q4 & Q5 & Q6); auto; [lia| |].
        - intros c' r Hc' E'. destruct (Nat.eq_dec c' c) as [->|]; [congruence|]. apply (HC c'); [lia|assumption].
        - exists l, Q. split; [assumption|]. split; [assumption|]. split; [assumption|]. split; [assumption|]. split; [assumption|]. split; [intros; apply Q5; lia|].
          rewrite (proj1 (Q3 c) E). assumption. }
    assert (Hr := HP c r E). assert (Hr' := Hr). destruct Hr' as (ND & HCf & HL & r' & Er & Hgt). rewrite Er. cbn iota. rewrite <- Er.
    destruct (scatter_ok p ncols r Hp2 ND HCf HL) as (dr & -> & L & V & B). cbn [obind fst].
    set (R := fun j => if (j <=? c)%nat then None else P j).
    assert (HRok : pivots_ok p ncols R). { intros c' r2. unfold R. destruct (c' <=? c)%nat; [discriminate|apply HP]. }
    assert (Hcn' : (c < ncols)%nat) by lia.
    assert (Eq : reduce_known k p (fun j => if (j =? c)%nat then None else P j) ncl ncols c dr = reduce_known k p R ncl ncols c dr).
    { unfold reduce_known. rewrite (red_loop_ext k p _ R); [reflexivity|]. intros j Hj. unfold R. destruct (Nat.eqb_spec j c); destruct (Nat.leb_spec j c); try lia; reflexivity. }
    rewrite Eq. clear Eq.
    destruct (reduce_known_ok k p ncols ncl c R dr HK HR HRok) as (dr' & o & -> & L' & B' & Z' & ZP & SP & Ho); auto; [lia| |lia|].
    { intros j Hj. rewrite V. eapply pivot_below; eassumption. }
    cbn [obind snd].
    assert (H1 : dv dr' c = 1).
    { assert (D : eqp p (dv dr c - dv dr' c) 0).
      { apply (span_at p _ (fun j => dv dr j - dv dr' j) c SP). intros u (c' & r2 & E2 & ->). unfold R in E2. destruct (Nat.leb_spec c' c); [discriminate|].
        rewrite (pivot_below p ncols c' r2) by (eauto; lia). reflexivity. }
      rewrite V, (pivot_lead p ncols c r Hr) in D. apply (eqp_small p); auto; [lia|]. symmetry. destruct D as (x & D). exists x. lia. }
    destruct o as [r2|]; [|rewrite Ho in H1; lia]. destruct Ho as (Hne & C2 & V2 & T2).
    destruct (canon_head p r2 c C2) as (r3 & Er2); [intros j Hj; rewrite V2; auto|rewrite V2; assumption|].
    assert (Hpr2 : pivot_row p ncols c r2). { rewrite Er2 in *. apply (canon_pivot p ncols r3 (c, 1)); auto. intros u Hu. apply T2. assumption. }
    set (P' := pset P c r2). assert (HP' : pivots_ok p ncols P').
    { intros c' q. unfold P', pset. destruct (Nat.eqb_spec c' c) as [->|]; [intros [= <-]; assumption|apply HP]. }
    assert (Hdom' : forall c', P' c' = None <-> P c' = None).
    { intros c'. unfold P', pset. destruct (Nat.eqb_spec c' c) as [->|]; [rewrite E; split; discriminate|tauto]. }
    assert (HRP : forall v, span p (pset_of R) v -> span p (pset_of P) v /\ span p (pset_of P') v).
    { intros v Hv. split; (eapply span_mono; [|exact Hv]); intros u (c' & q & Eq & ->); unfold R in Eq; destruct (Nat.leb_spec c' c); try discriminate; apply span_in; exists c', q.
      - auto.
      - unfold P', pset. destruct (Nat.eqb_spec c' c); [lia|auto]. }
    assert (HSP : same_span p (pset_of P) (pset_of P')).
    { intros v. destruct (HRP _ SP) as (S1 & S2). split; apply span_mono; intros u (c' & q & Eq & ->).
      - destruct (Nat.eq_dec c' c) as [->|Hne'].
        + rewrite E in Eq. injection Eq as <-. eapply span_eq with (u := fun j => rv r2 j + (dv dr j - dv dr' j)); [apply (span_add p _ (rv r2) (fun j => dv dr j - dv dr' j)); [|exact S2]|].
          * apply span_in. exists c, r2. unfold P', pset. rewrite Nat.eqb_refl. auto.
          * intros j. rewrite V, V2. exists 0. ring.
        + apply span_in. exists c', q. unfold P', pset. destruct (Nat.eqb_spec c' c); [contradiction|auto].
      - unfold P', pset in Eq. destruct (Nat.eqb_spec c' c) as [->|Hne'].
        + injection Eq as <-. eapply span_eq with (u := fun j => rv r j - (dv dr j - dv dr' j)); [apply (span_sub p _ (rv r) (fun j => dv dr j - dv dr' j)); [|exact S1]|].
          * apply span_in. exists c, r. auto.
          * intros j. rewrite V, V2. exists 0. ring.
        + apply span_in. exists c', q. auto. }
    destruct (IH P') as (l & Q & El & Q1 & Q2 & Q3 & Q4 & Q5 & Q6); auto; [lia| | |].
    + intros c' q Hc' Eq. unfold P', pset in Eq. destruct (Nat.eqb_spec c' c) as [->|Hne'].
      * injection Eq as <-. split; [assumption|]. intros c2 Hc2 Hd. rewrite V2. destruct (Nat.lt_ge_cases c2 c) as [Hl|Hg]; [auto|].
        apply ZP; [|assumption]. unfold R. destruct (Nat.leb_spec c2 c); [lia|]. intros Hn. apply Hd, Hdom'. assumption.
      * destruct (HC c' q) as (X1 & X2); [lia|assumption|]. split; [assumption|]. intros c2 Hc2 Hd. apply X2; [assumption|]. intros Hn. apply Hd, Hdom'. assumption.
    + intros c' Hc'. apply Hdom. intros Hn. apply Hc', Hdom'. assumption.
    + rewrite El. cbn [obind]. exists (r2 :: l), Q. split; [reflexivity|]. split; [assumption|]. split; [assumption|]. split; [intros c'; rewrite <- Q3, Hdom'; reflexivity|].
      split; [intros v; rewrite (HSP v), (Q4 v); reflexivity|]. split.
      * intros c' Hc'. rewrite Q5 by lia. unfold P', pset. destruct (Nat.eqb_spec c' c); [lia|reflexivity].
      * rewrite Q5 by (fold c; lia). unfold P', pset. rewrite Nat.eqb_refl. rewrite Q6. reflexivity.
Qed.

(** ** Whole function *)
Lemma echelon_core k p ncl ncols rr tr sched : prime p -> kern_ok k p -> kroom k p (S ncols) -> matrix_ok p ncl ncols rr tr ->
  forall s, sys_run k p ncl ncols sched (init_shared rr tr) = Some s -> forallb finished (sh_rows s) = true ->
  exists Q, interreduce k p ncl ncols (ncols - ncl) (drop_old ncl (sh_pivs s)) = Some (rows_desc ncl Q (ncols - ncl)) /\
  reduced_family p ncols Q /\ (forall c, Q c <> None -> (ncl <= c < ncols)%nat) /\
  (forall v, span p (pset_of Q) v <-> span p (gens rr tr) v /\ forall c, (c < ncl)%nat -> eqp p (v c) 0) /\
  same_span p (gens rr tr) (fun v => pset_of rr v \/ pset_of Q v).
Proof.
  intros HP HK HR HM s Es HF. destruct (run_ok k p ncl ncols rr tr sched HP HK HR HM) as (s' & Es' & HI). assert (s' = s) by congruence. subst s'.
  pose proof (finished_span _ _ _ _ _ _ _ _ HI HF) as HS. destruct HI as (HPv & HLe & HG & _). destruct HM as (Hle & Hrr & Hrok & _).
  set (P := sh_pivs s) in *.
  assert (HPd : pivots_ok p ncols (drop_old ncl P)). { intros c r. unfold drop_old. destruct (c <? ncl)%nat; [discriminate|apply HPv]. }
  destruct (interreduce_ok k p ncl ncols HK HR (ncols - ncl) (drop_old ncl P)) as (l & Q & El & Q1 & Q2 & Q3 & Q4 & Q5 & Q6); auto; [lia| | |].
  - intros c r Hc Ec. exfalso. destruct (HPd c r Ec) as (_ & _ & HL & r' & -> & _). specialize (HL (c, 1) (or_introl eq_refl)). cbn in HL. lia.
  - intros c. unfold drop_old. destruct (Nat.ltb_spec c ncl); [congruence|auto].
  - exists Q. split; [rewrite El, Q6; reflexivity|].
    assert (Hdomlo : forall c, Q c <> None -> (ncl <= c)%nat).
    { intros c Hc. destruct (Nat.lt_ge_cases c ncl) as [Hl|]; [|assumption]. exfalso. apply Hc, Q3. unfold drop_old. destruct (Nat.ltb_spec c ncl); [reflexivity|lia]. }
    assert (Hdom : forall c, Q c <> None -> (ncl <= c < ncols)%nat).
    { intros c Hc. split; [auto|]. destruct (Q c) as [r|] eqn:E; [|contradiction]. destruct (Q1 c r E) as (_ & _ & HL & r' & -> & _). apply (HL (c, 1)). left. reflexivity. }
    split; [split; [assumption|intros c r E; apply Q2; [apply Hdomlo; congruence|assumption]]|]. split; [assumption|].
    assert (HPg : forall v, span p (pset_of (drop_old ncl P)) v -> span p (gens rr tr) v).
    { intros v. apply span_mono. intros u (c & r & E & ->). unfold drop_old in E. destruct (c <? ncl)%nat; [discriminate|]. eauto. }
    split.
    + intros v. rewrite <- (Q4 v). split.
      * intros Hv. split; [auto|]. intros c Hc. apply (span_at p _ v c Hv). intros u (c' & r & E & ->). assert (E' := E). unfold drop_old in E. destruct (Nat.ltb_spec c' ncl); [discriminate|].
        rewrite (pivot_below p ncols c' r) by (eauto; lia). reflexivity.
      * intros (Hv & Hz). apply HS in Hv. apply (span_restrict p ncols P v ncl HPv Hv). auto.
    + intros v. rewrite (HS v). split; apply span_mono; intros u.
      * intros (c & r & E & ->). destruct (Nat.lt_ge_cases c ncl) as [Hl|Hg].
        -- apply span_in. left. destruct (rr c) as [q|] eqn:Er; [|exfalso; apply (proj1 (Hrr c) Hl); assumption]. exists c, q. split; [assumption|]. apply HLe in Er. congruence.
        -- assert (Hu : span p (pset_of (drop_old ncl P)) (rv r)). { apply span_in. exists c, r. unfold drop_old. destruct (Nat.ltb_spec c ncl); [lia|auto]. }
           apply Q4 in Hu. eapply span_mono; [|exact Hu]. intros w Hw. apply span_in. right. assumption.
      * intros [Hu|Hu]; apply HS; [apply span_in; left; assumption|]. apply HPg, Q4, span_in. assumption.
Qed.
