(** C82. Linear algebra with integer coefficients (computations in characteristic 0 without modular lifting). *)
From Coq Require Import ZArith Arith List Bool Lia Znumtheory Setoid Morphisms Sorted.
From Verif Require Import ModInvModel LinSpec LaSpec LaModel LaProofs LaRowProofs LaSysProofs LaProps ImportModel QlaSpec QlaModel QlaProofs QlaRow QlaSys QlaRed QlaTop.
Import ListNotations.
Open Scope Z_scope.

(** One row: a nonzero multiple of the row is an integer combination of the reducers plus the result; the result has no column with
    a reducer; it is empty exactly when the row is a rational combination of the reducers. *)
Theorem C82_reduce : forall n P dpiv dr, zpivots n P -> length dr = n -> (dpiv <= n)%nat -> (forall j, (j < dpiv)%nat -> dv dr j = 0) ->
  exists r m, qreduce P n dpiv dr = Some r /\ m <> 0 /\ zcanon r /\ (forall t, In t r -> (dpiv <= fst t < n)%nat /\ P (fst t) = None) /\
  span 0 (pset_of P) (fun j => m * dv dr j - rv r j) /\ (r = [] <-> qspan (pset_of P) (dv dr)).
Proof.
  intros n P dpiv dr HP HL Hd Hz. destruct (qreduce_ok n P dpiv dr HP HL Hd Hz) as (r & m & E & Hm & HC & HT & HS). exists r, m.
  do 5 (split; [assumption|]). split.
  - intros ->. exists m. split; [assumption|]. eapply span_pt; [exact HS|]. intros j. cbn [rv]. lia.
  - intros Hq. destruct r as [|(c, x) r]; [reflexivity|]. exfalso. apply (proj2 HC (c, x) (or_introl eq_refl)). cbn [snd].
    rewrite <- (rv_head c x r (zcanon_nodup _ HC)). apply (zspan_zero n P _ HP).
    + eapply qspan_pt; [apply (qspan_sub _ (fun j => m * dv dr j) (fun j => m * dv dr j - rv ((c, x) :: r) j)); [apply qspan_scale; assumption|apply qspan_span; assumption]|]. intros j. cbn beta. ring.
    + intros c' Hc'. apply rv_notin. intros Hin. apply in_map_iff in Hin. destruct Hin as (t & <- & Ht). apply Hc'. apply (HT t Ht).
Qed.
Print Assumptions C82_reduce.

(** Whole matrix, any number of threads: every schedule that gives each row enough steps ends, nothing undefined happens, the new
    rows with the known ones have the rational row space of the matrix, and they are the reduced echelon form of its part without
    the columns of the known rows, primitive and with positive leading coefficients. *)
Theorem C82_echelon : forall ncl n rr tr sched, qmatrix ncl n rr tr ->
  (forall t, (t < length tr)%nat -> ((n + 2) * (n + 3) <= count_occ Nat.eq_dec sched t)%nat) ->
  exists l, qechelon ncl n rr tr sched = Some l /\
  same_qspan (gens rr tr) (gens rr l) /\
  (forall v, qspan (rset l) v <-> qspan (gens rr tr) v /\ forall c, (c < ncl)%nat -> v c = 0) /\
  (forall r, In r l -> zcanon r /\ zprim r /\ exists c, (ncl <= c)%nat /\ zpivot n c r /\ forall r', In r' l -> r' <> r -> rv r' c = 0) /\ NoDup l.
Proof.
  intros ncl n rr tr sched HM HT. destruct (qrun_ok ncl n rr tr sched HM) as (s & E & HI).
  assert (HF : forallb qfinished (qs_rows s) = true) by (eapply qenough; [exact HI|]; intros t Ht; specialize (HT t Ht); unfold budget; nia).
  destruct (qechelon_core ncl n rr tr sched HM s E HF) as (Q & EQ & (Q1 & Q2) & Q3 & Q4 & Q5).
  unfold qechelon. rewrite E. cbn [obind]. rewrite HF, EQ. eexists. split; [reflexivity|].
  assert (Hle : (ncl <= n)%nat) by apply HM.
  assert (Hin : forall r, In r (rows_desc ncl Q (n - ncl)) <-> exists c, Q c = Some r).
  { intros r. rewrite rows_desc_in. split; [intros (c & _ & H); eauto|]. intros (c & H). exists c. split; [|assumption]. specialize (Q3 c). rewrite H in Q3. specialize (Q3 ltac:(discriminate)). lia. }
  assert (Hset : forall v, pset_of Q v <-> rset (rows_desc ncl Q (n - ncl)) v).
  { intros v. split; [intros (c & r & H & ->); exists r; split; [apply Hin; eauto|reflexivity]|]. intros (r & H & ->). apply Hin in H. destruct H as (c & H). exists c, r. auto. }
  split; [|split; [|split]].
  - intros v. rewrite (Q5 v). split; apply qspan_mono; intros u [Hu|Hu]; apply qspan_in; [left; assumption|right; apply Hset; assumption|left; assumption|right; apply Hset; assumption].
  - intros v. rewrite <- (Q4 v). split; apply qspan_mono; intros u Hu; apply qspan_in, Hset; assumption.
  - intros r Hr. apply Hin in Hr. destruct Hr as (c & Ec). split; [apply (Q2 c r Ec)|]. split; [apply (Q2 c r Ec)|]. exists c. split; [apply Q3; congruence|]. split; [apply Q1; assumption|].
    intros r' Hr' Hne. apply Hin in Hr'. destruct Hr' as (c' & Ec'). apply (Q2 c' r' Ec'); [|congruence]. intros ->. congruence.
  - generalize (n - ncl)%nat as cnt. induction cnt as [|cnt IH]; cbn [rows_desc]; [constructor|]. destruct (Q (ncl + cnt)%nat) as [r|] eqn:Er; [|assumption].
    constructor; [|assumption]. rewrite rows_desc_in. intros (c & Hc & Ec).
    destruct (zpivot_shape n _ r (Q1 _ r Er)) as (x & r' & E1). destruct (zpivot_shape n _ r (Q1 _ r Ec)) as (y & r2 & E2). rewrite E1 in E2. injection E2 as Hcc _ _. lia.
Qed.
Print Assumptions C82_echelon.

(** The rows returned depend only on the rational row space of the matrix and on its number of known pivots: not on the number of
    threads and the schedule, not on the order or the multiples in which the rows are given. *)
Theorem C82_same_rows : forall ncl n rr1 tr1 s1 l1 rr2 tr2 s2 l2, qmatrix ncl n rr1 tr1 -> qmatrix ncl n rr2 tr2 -> same_qspan (gens rr1 tr1) (gens rr2 tr2) ->
  qechelon ncl n rr1 tr1 s1 = Some l1 -> qechelon ncl n rr2 tr2 s2 = Some l2 -> l1 = l2.
Proof. intros ncl n rr1 tr1 s1 l1 rr2 tr2 s2 l2 M1 M2 HS E1 E2. exact (qechelon_same ncl n rr1 tr1 s1 rr2 tr2 s2 l1 l2 M1 M2 HS E1 E2). Qed.
Print Assumptions C82_same_rows.

(** The variant of linear algebra option 1, which reduces the known pivots first, returns the same rows whenever there is a known
    pivot. *)
Theorem C82_ab_first : forall ncl n rr tr s1 s2, qmatrix ncl n rr tr -> (0 < ncl)%nat ->
  (forall t, (t < length tr)%nat -> ((n + 2) * (n + 3) <= count_occ Nat.eq_dec s1 t)%nat) ->
  (forall t, (t < length tr)%nat -> ((n + 2) * (n + 3) <= count_occ Nat.eq_dec s2 t)%nat) ->
  exists l, qechelon_ab ncl n rr tr s1 = Some l /\ qechelon ncl n rr tr s2 = Some l.
Proof.
  intros ncl n rr tr s1 s2 HM Hpos H1 H2. assert (HM' := HM). destruct HM' as (Hle & Hd & HP & HR). destruct ncl as [|m]; [lia|].
  destruct (ab_rows_ok (S m) n Hle m rr) as (rr' & E & HP' & Hd' & HS); [lia|assumption|intros c Hc; apply Hd; assumption|].
  assert (HM2 : qmatrix (S m) n rr' tr).
  { split; [assumption|]. split; [|split; assumption]. intros c. rewrite (Hd c). rewrite (Hd' c). tauto. }
  destruct (C82_echelon (S m) n rr' tr s1 HM2 H1) as (l1 & E1 & _). destruct (C82_echelon (S m) n rr tr s2 HM H2) as (l2 & E2 & _).
  exists l1. split; [unfold qechelon_ab; rewrite E; cbn [obind]; assumption|]. rewrite E2. f_equal. symmetry. eapply qechelon_same; [exact HM2|exact HM| |exact E1|exact E2].
  assert (G : forall R1 R2 w, (forall u, pset_of R1 u -> qspan (pset_of R2) u) -> qspan (gens R1 tr) w -> qspan (gens R2 tr) w).
  { intros R1 R2 w HR12. apply qspan_mono. intros u [Hu|Hu]; [|apply qspan_in; right; assumption]. eapply qspan_mono; [|exact (HR12 u Hu)]. intros z Hz. apply qspan_in. left. assumption. }
  intros v. split; apply G; intros u Hu; [apply (proj2 (HS u))|apply (proj1 (HS u))]; apply qspan_in; assumption.
Qed.
Print Assumptions C82_ab_first.

(** ** The final interreduction of a basis in characteristic 0 *)
(** rows given by coefficient arrays: the columns fit the array, the first one leads, the leading columns differ *)
Definition basis_rows (n : nat) (rows : list (nat * list nat)) (st : nat -> list Z) : Prop :=
  (forall i cols, In (i, cols) rows -> length cols = length (st i) /\ exists c, zpivot n c (combine cols (st i))) /\
  NoDup (map (fun q => hd O (snd q)) rows).
Definition row_set (rows : list (nat * list nat)) (st : nat -> list Z) : vec -> Prop := fun v => exists i cols, In (i, cols) rows /\ v = rv (combine cols (st i)).

Lemma ir_src_in rows c q : ir_src rows c = Some q -> In q rows /\ exists l, snd q = c :: l.
Proof.
  induction rows as [|q0 rows IH]; cbn [ir_src]; [discriminate|]. destruct (ir_src rows c) as [q1|].
  - intros [= <-]. destruct (IH eq_refl) as (H1 & H2). split; [right; assumption|assumption].
  - destruct (snd q0) as [|c0 l] eqn:E; [discriminate|]. destruct (Nat.eqb_spec c0 c) as [->|]; [|discriminate]. intros [= <-]. split; [left; reflexivity|eauto].
Qed.
Lemma ir_src_of rows q c l : NoDup (map (fun q => hd O (snd q)) rows) -> In q rows -> snd q = c :: l -> ir_src rows c = Some q.
Proof.
  induction rows as [|q0 rows IH]; intros ND Hin E; [destruct Hin|]. cbn [map] in ND. inversion ND as [|? ? Hn ND']; subst. cbn [ir_src]. destruct Hin as [->|Hin].
  - destruct (ir_src rows c) as [q1|] eqn:E1.
    + exfalso. apply Hn. apply ir_src_in in E1. destruct E1 as (H1 & l1 & H2). rewrite E. cbn [hd]. apply in_map_iff. exists q1. rewrite H2. auto.
    + rewrite E, Nat.eqb_refl. reflexivity.
  - rewrite (IH ND' Hin E). reflexivity.
Qed.

(** When no two rows share an array the result is the interreduced basis: same rational row space, same leading columns, every row
    zero in the leading columns of the others. *)
Theorem C82_interreduce : forall n rows st, basis_rows n rows st -> NoDup (map fst rows) ->
  exists l, ir_basis n rows st = Some l /\ same_qspan (row_set rows st) (rset l) /\ length l = length rows /\
  (forall r, In r l -> zcanon r /\ exists c i cols, In (i, cols) rows /\ hd O cols = c /\ zpivot n c r /\ forall r', In r' l -> r' <> r -> rv r' c = 0).
Proof.
  intros n rows st (HB & ND) NDi.
  set (F := fun j => match ir_src rows j with None => None | Some q => Some (combine (snd q) (st (fst q))) end).
  assert (Hshape : forall i cols, In (i, cols) rows -> exists c l, cols = c :: l /\ zpivot n c (combine cols (st i))).
  { intros i cols Hin. destruct (HB i cols Hin) as (Hlen & c & Hc). destruct (zpivot_shape n c _ Hc) as (x & r' & E). destruct cols as [|c0 l]; [discriminate|]. destruct (st i); [discriminate|].
    cbn [combine] in E. injection E as -> _ _. eauto. }
  assert (HFin : forall j r, F j = Some r -> exists i l, ir_src rows j = Some (i, j :: l) /\ In (i, j :: l) rows /\ r = combine (j :: l) (st i)).
  { intros j r. unfold F. destruct (ir_src rows j) as [(i, cols)|] eqn:E; [|discriminate]. intros [= <-]. destruct (ir_src_in rows j _ E) as (Hin & l & El). cbn [snd fst] in *. rewrite El in *. exists i, l. auto. }
  assert (HF : zpivots n F).
  { intros j r E. destruct (HFin j r E) as (i & l & _ & Hin & ->). destruct (Hshape i _ Hin) as (c & l' & El & Hp). injection El as <- _. assumption. }
  destruct (ir_loop_ok n (ir_src rows) n st (fun _ => None) F) as (Q & EQ & Q1 & Q2 & Q3 & Q4 & _); auto.
  - intros c r Hc E. pose proof (zpivot_lt n c r (HF c r E)). lia.
  - intros j. unfold drop_old. destruct (Nat.ltb_spec j n) as [|Hge]; [reflexivity|]. destruct (F j) as [r|] eqn:E; [|reflexivity]. pose proof (zpivot_lt n j r (HF j r E)). lia.
  - intros j _. unfold F. destruct (ir_src rows j) as [(i, cols)|] eqn:E; [|reflexivity]. split; [|reflexivity]. apply (HB i cols). apply (ir_src_in rows j _ E).
  - intros j1 j2 i c1 c2 _ _ E1 E2. destruct (ir_src_in _ _ _ E1) as (I1 & l1 & L1). destruct (ir_src_in _ _ _ E2) as (I2 & l2 & L2). cbn [snd] in *.
    assert (X : (i, c1) = (i, c2)).
    { clear - NDi I1 I2. induction rows as [|q rows IH]; [destruct I1|]. cbn [map] in NDi. inversion NDi as [|? ? Hn ND']; subst. destruct I1 as [->|I1]; destruct I2 as [E|I2]; auto.
      - exfalso. apply Hn. apply in_map_iff. exists (i, c2). auto.
      - subst q. exfalso. apply Hn. apply in_map_iff. exists (i, c1). auto. }
    injection X as X. rewrite X, L2 in L1. injection L1; auto.
  - unfold ir_basis, ir_rows. rewrite EQ. cbn [obind]. rewrite omap_some. eexists. split; [reflexivity|].
    assert (Hin : forall r, In r (rows_desc 0 Q n) <-> exists c, Q c = Some r).
    { intros r. rewrite rows_desc_in. split; [intros (c & _ & H); eauto|]. intros (c & H). exists c. split; [|assumption]. pose proof (zpivot_lt n c r (Q1 c r H)). lia. }
    assert (HFs : forall c, F c <> None -> exists i cols, In (i, cols) rows /\ hd O cols = c).
    { intros c Hc. destruct (F c) as [r|] eqn:E; [|contradiction]. destruct (HFin c r E) as (i & l & _ & Hi & _). exists i, (c :: l). auto. }
    split; [|split].
    + intros v. assert (HX : qspan (row_set rows st) v <-> qspan (pset_of F) v).
      { split; apply qspan_mono.
        - intros u (i & cols & Hi & ->). destruct (Hshape i cols Hi) as (c & l & El & _). apply qspan_in. exists c, (combine cols (st i)). split; [|reflexivity].
          unfold F. rewrite (ir_src_of rows (i, cols) c l ND Hi El). reflexivity.
        - intros u (c & r & E & ->). destruct (HFin c r E) as (i & l & _ & Hi & ->). apply qspan_in. exists i, (c :: l). auto. }
      rewrite HX, (Q4 v). split; apply qspan_mono.
      * intros u (c & r & E & ->). apply qspan_in. exists r. split; [apply Hin; eauto|reflexivity].
      * intros u (r & Hr & ->). apply Hin in Hr. destruct Hr as (c & E). apply qspan_in. exists c, r. auto.
    + (* number of rows *)
      assert (NDr : NoDup (map (fun r : srow => match r with [] => O | t :: _ => fst t end) (rows_desc 0 Q n))).
      { assert (GG : forall cnt, NoDup (map (fun r : srow => match r with [] => O | t :: _ => fst t end) (rows_desc 0 Q cnt)) /\ forall c, In c (map (fun r : srow => match r with [] => O | t :: _ => fst t end) (rows_desc 0 Q cnt)) -> (c < cnt)%nat); [|apply GG].
        induction cnt as [|cnt (I1 & I2)]; cbn [rows_desc Nat.add]; [split; [constructor|intros c []]|]. destruct (Q cnt) as [r|] eqn:Er; [|split; [assumption|intros c Hc; specialize (I2 c Hc); lia]].
        destruct (zpivot_shape n cnt r (Q1 cnt r Er)) as (x & r' & ->). cbn [map fst]. split; [constructor; [intros Hc; specialize (I2 _ Hc); lia|assumption]|]. intros c [<-|Hc]; [lia|]. specialize (I2 c Hc). lia. }
      apply Nat.le_antisymm.
      * rewrite <- (map_length (fun r : srow => match r with [] => O | t :: _ => fst t end)), <- (map_length (fun q : nat * list nat => hd O (snd q)) rows). apply NoDup_incl_length; [assumption|].
        intros c Hc. apply in_map_iff in Hc. destruct Hc as (r & Ec & Hr). apply Hin in Hr. destruct Hr as (c' & E). destruct (zpivot_shape n c' r (Q1 c' r E)) as (x & r' & ->). cbn [fst] in Ec. subst c'.
        destruct (HFs c) as (i & cols & Hi & Hh); [rewrite (Q3 c), E; discriminate|]. apply in_map_iff. exists (i, cols). auto.
      * rewrite <- (map_length (fun r : srow => match r with [] => O | t :: _ => fst t end) (rows_desc 0 Q n)), <- (map_length (fun q : nat * list nat => hd O (snd q)) rows). apply NoDup_incl_length; [assumption|].
        intros c Hc. apply in_map_iff in Hc. destruct Hc as ((i, cols) & Ec & Hi). cbn [snd] in Ec. destruct (Hshape i cols Hi) as (c0 & l & El & _). rewrite El in Ec. cbn [hd] in Ec. subst c0.
        assert (HFc : F c <> None) by (unfold F; rewrite (ir_src_of rows (i, cols) c l ND Hi El); discriminate). destruct (Q c) as [r|] eqn:E; [|exfalso; apply HFc, Q3, E].
        apply in_map_iff. exists r. split; [|apply Hin; eauto]. destruct (zpivot_shape n c r (Q1 c r E)) as (x & r' & ->). reflexivity.
    + intros r Hr. apply Hin in Hr. destruct Hr as (c & E). split; [apply (Q2 c r (Nat.le_0_l c) E)|]. destruct (HFs c) as (i & cols & Hi & Hh); [rewrite (Q3 c), E; discriminate|].
      exists c, i, cols. split; [assumption|]. split; [assumption|]. split; [apply Q1; assumption|].
      intros r' Hr' Hne. apply Hin in Hr'. destruct Hr' as (c' & E'). apply (Q2 c' r' (Nat.le_0_l c') E'); [|congruence]. intros ->. congruence.
Qed.
Print Assumptions C82_interreduce.

(** Loading a zero row gives no row. *)
Lemma qloop_zero P cnt : forall i dr s, (forall j, dv dr j = 0) -> qloop P cnt i dr [] = Some s -> snd s = [].
Proof.
  induction cnt as [|cnt IH]; intros i dr s Hz; cbn [qloop]; [intros [= <-]; reflexivity|]. unfold qcol. destruct (Nat.lt_ge_cases i (length dr)) as [Hi|Hi].
  - rewrite drd_dv by assumption. cbn [obind]. rewrite Hz. cbn [Z.eqb obind fst snd]. apply IH. assumption.
  - unfold drd. rewrite (proj2 (nth_error_None dr i) Hi). discriminate.
Qed.
Lemma qreduce_zero P n d dr s : (forall j, dv dr j = 0) -> qreduce P n d dr = Some s -> s = [].
Proof. intros Hz. unfold qreduce. destruct (qloop P (n - d) d dr []) as [q|] eqn:E; cbn [obind]; [|discriminate]. intros [= <-]. eapply qloop_zero; eassumption. Qed.
Lemma qload_zero n cols cfs dr : (forall x, In x cfs -> x = 0) -> qload n cols cfs = Some dr -> forall j, dv dr j = 0.
Proof.
  intros Hz. unfold qload. destruct (length cols =? length cfs)%nat; [|discriminate]. unfold scatter.
  assert (G : forall (r : srow) d, (forall t, In t r -> snd t = 0) -> (forall j, dv d j = 0) -> each (fun t d => dwr d (fst t) (snd t)) r d = Some dr -> forall j, dv dr j = 0).
  { induction r as [|t r IH]; intros d H0 Hd; cbn [each]; [intros [= <-]; assumption|]. destruct (dwr d (fst t) (snd t)) as [d1|] eqn:E; cbn [obind]; [|discriminate]. apply IH; [intros u Hu; apply H0; right; assumption|].
    assert (Hlt := dwr_inv _ _ _ _ E). destruct (dwr_ok d (fst t) (snd t) Hlt) as (d2 & E2 & _ & V). assert (d2 = d1) by congruence. subst d2. intros j. rewrite V, (H0 t (or_introl eq_refl)), Hd. destruct (j =? fst t)%nat; reflexivity. }
  apply G; [|apply dv_repeat]. intros (c, x) Ht. apply in_combine_r in Ht. cbn [snd]. auto.
Qed.
Definition ir_dead (o : option (list (option srow))) : Prop := match o with None => True | Some l => In None l end.
Lemma ir_dead_basis (o : option (list (option srow))) : ir_dead o -> (let? l := o in omap (fun x => x) l) = None.
Proof.
  destruct o as [l|]; cbn [ir_dead obind]; [|reflexivity]. induction l as [|a l IH]; [intros []|]. intros [->|H]; cbn [omap]; [reflexivity|]. destruct a; cbn [obind]; [|reflexivity]. rewrite (IH H). reflexivity.
Qed.
Lemma zeroed_zero st i k : (forall x, In x (st k) -> x = 0) -> forall x, In x (zeroed st i k) -> x = 0.
Proof. intros H x. unfold zeroed. destruct (k =? i)%nat; [|apply H]. intros Hx. apply in_map_iff in Hx. destruct Hx as (y & <- & _). reflexivity. Qed.
Lemma ir_zero_dead n src j i cols : src j = Some (i, cols) -> forall cnt st pivs, (j < cnt)%nat -> (forall x, In x (st i) -> x = 0) -> ir_dead (ir_loop n cnt src st pivs).
Proof.
  intros Hj. induction cnt as [|c IH]; intros st pivs Hlt Hz; [lia|]. cbn [ir_loop]. destruct (Nat.eq_dec j c) as [->|Hne].
  - rewrite Hj. destruct cols as [|sc cols]; [exact Logic.I|]. destruct (qload n (sc :: cols) (st i)) as [dr|] eqn:E; cbn [obind]; [|exact Logic.I].
    pose proof (qload_zero _ _ _ _ Hz E) as Hd. destruct (qreduce pivs n sc dr) as [s|] eqn:Es; cbn [obind]; [|exact Logic.I]. apply (qreduce_zero _ _ _ _ _ Hd) in Es. subst s.
    destruct (ir_loop n c src (zeroed st i) pivs); cbn [obind ir_dead]; [left; reflexivity|exact Logic.I].
  - assert (Hlt' : (j < c)%nat) by lia. destruct (src c) as [(i2, cols2)|]; [|apply IH; assumption]. destruct cols2 as [|sc cols2]; [exact Logic.I|].
    destruct (qload n (sc :: cols2) (st i2)) as [dr|]; cbn [obind]; [|exact Logic.I]. destruct (qreduce pivs n sc dr) as [s|]; cbn [obind]; [|exact Logic.I].
    destruct s as [|t s].
    + specialize (IH (zeroed st i2) pivs Hlt' (zeroed_zero st i2 i Hz)). destruct (ir_loop n c src (zeroed st i2) pivs) as [l|]; cbn [obind ir_dead] in *; [right; assumption|exact Logic.I].
    + specialize (IH (zeroed st i2) (pset pivs c (t :: s)) Hlt' (zeroed_zero st i2 i Hz)). destruct (ir_loop n c src (zeroed st i2) (pset pivs c (t :: s))) as [l|]; cbn [obind ir_dead] in *; [right; assumption|exact Logic.I].
Qed.
Lemma ir_shared_dead n src j1 j2 i cols1 cols2 : (j1 < j2)%nat -> src j1 = Some (i, cols1) -> src j2 = Some (i, cols2) -> forall cnt st pivs, (j2 < cnt)%nat -> ir_dead (ir_loop n cnt src st pivs).
Proof.
  intros Hlt H1 H2. induction cnt as [|c IH]; intros st pivs Hc; [lia|]. cbn [ir_loop]. destruct (Nat.eq_dec j2 c) as [->|Hne].
  - rewrite H2. destruct cols2 as [|sc cols2]; [exact Logic.I|]. destruct (qload n (sc :: cols2) (st i)) as [dr|] eqn:E; cbn [obind]; [|exact Logic.I].
    destruct (qreduce pivs n sc dr) as [s|] eqn:Es; cbn [obind]; [|exact Logic.I].
    assert (Hz : forall x, In x (zeroed st i i) -> x = 0). { intros x. unfold zeroed. rewrite Nat.eqb_refl. intros Hx. apply in_map_iff in Hx. destruct Hx as (y & <- & _). reflexivity. }
    destruct s as [|t s].
    + pose proof (ir_zero_dead n src j1 i cols1 H1 c (zeroed st i) pivs Hlt Hz) as D. destruct (ir_loop n c src (zeroed st i) pivs) as [l|]; cbn [obind ir_dead] in *; [right; assumption|exact Logic.I].
    + pose proof (ir_zero_dead n src j1 i cols1 H1 c (zeroed st i) (pset pivs c (t :: s)) Hlt Hz) as D. destruct (ir_loop n c src (zeroed st i) (pset pivs c (t :: s))) as [l|]; cbn [obind ir_dead] in *; [right; assumption|exact Logic.I].
  - assert (Hlt' : (j2 < c)%nat) by lia. destruct (src c) as [(i2, c2)|]; [|apply IH; assumption]. destruct c2 as [|sc c2]; [exact Logic.I|].
    destruct (qload n (sc :: c2) (st i2)) as [dr|]; cbn [obind]; [|exact Logic.I]. destruct (qreduce pivs n sc dr) as [s|]; cbn [obind]; [|exact Logic.I].
    destruct s as [|t s].
    + specialize (IH (zeroed st i2) pivs Hlt'). destruct (ir_loop n c src (zeroed st i2) pivs) as [l|]; cbn [obind ir_dead] in *; [right; assumption|exact Logic.I].
    + specialize (IH (zeroed st i2) (pset pivs c (t :: s)) Hlt'). destruct (ir_loop n c src (zeroed st i2) (pset pivs c (t :: s))) as [l|]; cbn [obind ir_dead] in *; [right; assumption|exact Logic.I].
Qed.
(** As soon as two rows use one coefficient array — an element of the basis and a multiple of it, needed to reduce a tail — the
    second one is loaded as zeros, its place is NULL and the conversion reads through it: never a basis. *)
Theorem C82_shared_refuted : forall n rows st i c1 l1 c2 l2, NoDup (map (fun q => hd O (snd q)) rows) ->
  In (i, c1 :: l1) rows -> In (i, c2 :: l2) rows -> (c1 < c2 < n)%nat -> ir_basis n rows st = None.
Proof.
  intros n rows st i c1 l1 c2 l2 ND I1 I2 Hc. unfold ir_basis, ir_rows. apply ir_dead_basis.
  apply (ir_shared_dead n (ir_src rows) c1 c2 i (c1 :: l1) (c2 :: l2)); [lia|exact (ir_src_of rows (i, c1 :: l1) c1 l1 ND I1 eq_refl)|exact (ir_src_of rows (i, c2 :: l2) c2 l2 ND I2 eq_refl)|lia].
Qed.
Print Assumptions C82_shared_refuted.
