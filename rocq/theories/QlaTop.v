(** Variant reducing the known pivots first; the interreduction of a final basis. *)
From Coq Require Import ZArith Arith List Bool Lia Znumtheory Setoid Morphisms Sorted.
From Verif Require Import ModInvModel LinSpec LaSpec LaModel LaProofs LaRowProofs LaSysProofs ImportModel QlaSpec QlaModel QlaProofs QlaRow QlaSys QlaRed.
Import ListNotations.
Open Scope Z_scope.

(** ** Collecting the right part *)
Lemma collect_gen l : forall a, let s := filter (fun t : nat * Z => negb (snd t =? 0)) (combine (seq a (length l)) l) in
  zcanon s /\ (forall t, In t s -> (a <= fst t < a + length l)%nat) /\ forall j, rv s j = if (j <? a)%nat then 0 else nth (j - a) l 0.
Proof.
  induction l as [|x l IH]; intros a; cbn zeta.
  - cbn [length seq combine filter]. split; [split; [constructor|intros t []]|]. split; [intros t []|]. intros j. cbn [rv]. destruct (j <? a)%nat; [reflexivity|]. destruct (j - a)%nat; reflexivity.
  - cbn [length seq combine filter snd]. destruct (IH (S a)) as ((HS & Hn) & HL & HV). set (s := filter _ (combine (seq (S a) (length l)) l)) in *.
    assert (HVx : forall j, (if (a =? j)%nat then x else 0) + rv s j = if (j <? a)%nat then 0 else nth (j - a) (x :: l) 0).
    { intros j. rewrite HV. destruct (Nat.eqb_spec a j) as [->|Hne].
      - destruct (Nat.ltb_spec j (S j)); [|lia]. destruct (Nat.ltb_spec j j); [lia|]. rewrite Nat.sub_diag. cbn [nth]. lia.
      - destruct (Nat.ltb_spec j a); destruct (Nat.ltb_spec j (S a)); try lia. replace (j - a)%nat with (S (j - S a)) by lia. cbn [nth]. lia. }
    destruct (Z.eqb_spec x 0) as [E|E]; cbn [negb].
    + split; [split; assumption|]. split; [intros t Ht; specialize (HL t Ht); lia|]. intros j. rewrite <- HVx. rewrite E. destruct (a =? j)%nat; lia.
    + split; [split|split].
      * cbn [map fst]. constructor; [assumption|]. apply Forall_forall. intros c Hc. apply in_map_iff in Hc. destruct Hc as (t & <- & Ht). specialize (HL t Ht). lia.
      * intros t [<-|Ht]; [exact E|auto].
      * intros t [<-|Ht]; [cbn [fst]; lia|]. specialize (HL t Ht). lia.
      * intros j. cbn [rv fst snd]. apply HVx.
Qed.
Lemma collect_ok ncl dr : zcanon (collect ncl dr) /\ (forall t, In t (collect ncl dr) -> (ncl <= fst t < length dr)%nat) /\ forall j, rv (collect ncl dr) j = mask ncl dr j.
Proof.
  unfold collect. destruct (collect_gen (skipn ncl dr) ncl) as (H1 & H2 & H3). rewrite skipn_length in *. split; [assumption|]. split.
  - intros t Ht. specialize (H2 t Ht). lia.
  - intros j. rewrite H3. unfold mask, dv. destruct (Nat.ltb_spec j ncl); [reflexivity|].
    replace j with (ncl + (j - ncl))%nat at 2 by lia. generalize (j - ncl)%nat as k. clear. revert ncl. induction dr as [|d dr IH]; intros [|ncl] k; cbn [skipn Nat.add nth]; auto. destruct k; reflexivity.
Qed.
Lemma zcanon_app a b m : zcanon a -> zcanon b -> (forall t, In t a -> (fst t < m)%nat) -> (forall t, In t b -> (m <= fst t)%nat) -> zcanon (a ++ b).
Proof.
  intros (S1 & N1) (S2 & N2) HA HB. split.
  - rewrite map_app. induction a as [|t a IH]; cbn [map app] in *; [assumption|]. apply StronglySorted_inv in S1. destruct S1 as (S1 & F1). constructor.
    + apply IH; [assumption|intros u Hu; apply N1; right; assumption|intros u Hu; apply HA; right; assumption].
    + apply Forall_app. split; [assumption|]. apply Forall_forall. intros c Hc. apply in_map_iff in Hc. destruct Hc as (u & <- & Hu). specialize (HB u Hu). specialize (HA t (or_introl eq_refl)). lia.
  - intros t Ht. apply in_app_or in Ht. destruct Ht; auto.
Qed.

Lemma ab_rows_ok ncl n : (ncl <= n)%nat -> forall cnt P, (cnt <= ncl)%nat -> zpivots n P -> (forall c, (c < ncl)%nat -> P c <> None) ->
  exists Q, ab_rows ncl n cnt P = Some Q /\ zpivots n Q /\ (forall c, P c = None <-> Q c = None) /\ same_qspan (pset_of P) (pset_of Q).
Proof.
  intros Hn. induction cnt as [|k IH]; intros P Hk HP Hdom; cbn [ab_rows].
  - exists P. split; [reflexivity|]. split; [assumption|]. split; [tauto|intros v; tauto].
  - destruct (P k) as [r|] eqn:E; [|exfalso; apply (Hdom k); [lia|assumption]].
    assert (Hr := HP k r E). destruct (zpivot_shape n k r Hr) as (x & r' & Er). rewrite Er. cbn iota. rewrite <- Er. cbn [fst]. assert (Hr' := Hr). destruct Hr' as (ND & HLt & _).
    destruct (scatter_any n r ND HLt) as (dr & -> & L & V). cbn [obind]. unfold qreduce_ab.
    rewrite (qloop_ext _ (above k P)).
    2:{ intros j Hj. unfold above. destruct (Nat.eqb_spec j k); destruct (Nat.leb_spec j k); try lia; reflexivity. }
    destruct (qloop_ok n (above k P) (above_zp n k P HP) (ncl - k) k dr [] k L) as (d1 & k1 & m & -> & L1 & Hm & (HK1 & HK2) & HS & _); [lia|apply kept_nil|intros; lia|].
    cbn [obind fst snd]. replace (k + (ncl - k))%nat with ncl in * by lia.
    destruct (collect_ok ncl d1) as (C1 & C2 & C3).
    assert (HS' : span 0 (pset_of (above k P)) (fun j => m * rv r j - rv (k1 ++ collect ncl d1) j)).
    { eapply span_pt; [exact HS|]. intros j. cbn beta. rewrite rv_app, C3. unfold cur. cbn [rv]. f_equal. unfold mask at 1. destruct (Nat.ltb_spec j k) as [Hj|].
      - rewrite (zpivot_below n k r j Hr Hj). lia.
      - rewrite V. lia. }
    assert (HCs : zcanon (k1 ++ collect ncl d1)).
    { apply (zcanon_app _ _ ncl HK1 C1); [intros t Ht; specialize (HK2 t Ht); lia|intros t Ht; specialize (C2 t Ht); lia]. }
    assert (HTs : forall t, In t (k1 ++ collect ncl d1) -> (k <= fst t < n)%nat).
    { intros t Ht. apply in_app_or in Ht. destruct Ht as [Ht|Ht]; [specialize (HK2 t Ht); lia|]. specialize (C2 t Ht). lia. }
    assert (Hh : exists y s', k1 ++ collect ncl d1 = (k, y) :: s').
    { eapply above_head; [exact HP|exact Hr|exact Hm|exact HCs| |exact HS']. intros t Ht. specialize (HTs t Ht). lia. }
    assert (Hne : k1 <> []).
    { intros ->. cbn [app] in Hh. destruct Hh as (y & s' & Ey). specialize (C2 (k, y)). rewrite Ey in C2. specialize (C2 (or_introl eq_refl)). cbn [fst] in C2. lia. }
    set (s := k1 ++ collect ncl d1) in *.
    assert (Em : match k1 with [] => Some [] | _ :: _ => Some s end = Some s) by (destruct k1; [contradiction|reflexivity]).
    replace (match k1 with [] => Some [] | p :: l => Some ((p :: l) ++ collect ncl d1) end) with (Some s) by (destruct k1; [contradiction|reflexivity]). cbn [obind].
    destruct (strip_row n P k r s m Hm HCs HTs Hh HS') as (s2 & q & Est & Hq & HC2 & HP2 & Hpv & Hf & HV).
    destruct Hh as (y & s' & Ey). rewrite Ey. cbn iota. rewrite <- Ey. rewrite Est. cbn [obind].
    destruct (IH (pset P k s2)) as (Q & EQ & Q1 & Q2 & Q3); [lia| | |].
    + intros c' w. unfold pset. destruct (Nat.eqb_spec c' k) as [->|]; [intros [= <-]; assumption|apply HP].
    + intros c Hc. unfold pset. destruct (c =? k)%nat; [discriminate|auto].
    + exists Q. split; [assumption|]. split; [assumption|]. split.
      * intros c. rewrite <- Q2. unfold pset. destruct (Nat.eqb_spec c k) as [->|]; [rewrite E; split; discriminate|tauto].
      * intros v. rewrite <- (Q3 v). apply (replace_line n P k r s s2 m q HP E Hm Hq HV HS').
Qed.

(** ** Two runs on matrices with the same row space *)
Lemma qechelon_same ncl n rr1 tr1 s1 rr2 tr2 s2 l1 l2 : qmatrix ncl n rr1 tr1 -> qmatrix ncl n rr2 tr2 -> same_qspan (gens rr1 tr1) (gens rr2 tr2) ->
  qechelon ncl n rr1 tr1 s1 = Some l1 -> qechelon ncl n rr2 tr2 s2 = Some l2 -> l1 = l2.
Proof.
  intros M1 M2 HS E1 E2.
  assert (G : forall rr tr s l, qmatrix ncl n rr tr -> qechelon ncl n rr tr s = Some l -> exists Q, l = rows_desc ncl Q (n - ncl) /\ qreduced n Q /\
    (forall v, qspan (pset_of Q) v <-> qspan (gens rr tr) v /\ forall c, (c < ncl)%nat -> v c = 0)).
  { intros rr tr sc l M E. unfold qechelon in E. destruct (qsys_run n sc (qinit rr tr)) as [s|] eqn:Es; cbn [obind] in E; [|discriminate].
    destruct (forallb qfinished (qs_rows s)) eqn:HF; [|discriminate].
    destruct (qechelon_core ncl n rr tr sc M s Es HF) as (Q & EQ & Q1 & _ & Q4 & _). rewrite EQ in E. injection E as <-. exists Q. auto. }
  destruct (G rr1 tr1 s1 l1 M1 E1) as (Q1 & -> & R1 & S1). destruct (G rr2 tr2 s2 l2 M2 E2) as (Q2 & -> & R2 & S2).
  assert (HE : forall c, Q1 c = Q2 c). { apply (qreduced_unique n); auto. intros v. rewrite (S1 v), (S2 v), (HS v). reflexivity. }
  generalize (n - ncl)%nat as cnt. induction cnt as [|cnt IH]; cbn [rows_desc]; [reflexivity|]. rewrite HE, IH. reflexivity.
Qed.

(** ** Interreduction of a final basis *)
Definition zclean (m : nat) (P : nat -> option srow) : Prop :=
  forall c r, (m <= c)%nat -> P c = Some r -> zcanon r /\ forall c', c' <> c -> P c' <> None -> rv r c' = 0.
Lemma ir_loop_ok n src : forall cnt st pivs F, (cnt <= n)%nat -> zpivots n F -> zclean cnt F -> (forall j, pivs j = drop_old cnt F j) ->
  (forall j, (j < cnt)%nat -> match src j with None => F j = None | Some (i, cols) => length cols = length (st i) /\ F j = Some (combine cols (st i)) end) ->
  (forall j1 j2 i c1 c2, (j1 < cnt)%nat -> (j2 < cnt)%nat -> src j1 = Some (i, c1) -> src j2 = Some (i, c2) -> j1 = j2) ->
  exists Q, ir_loop n cnt src st pivs = Some (map Some (rows_desc 0 Q cnt)) /\ zpivots n Q /\ zclean 0 Q /\ (forall c, F c = None <-> Q c = None) /\
  same_qspan (pset_of F) (pset_of Q) /\ (forall c, (cnt <= c)%nat -> Q c = F c).
Proof.
  induction cnt as [|c IH]; intros st pivs F Hcn HF HC Hp Hsrc Hinj; cbn [ir_loop rows_desc Nat.add].
  - exists F. split; [reflexivity|]. split; [assumption|]. split; [assumption|]. split; [tauto|]. split; [intros v; tauto|auto].
  - assert (Hc := Hsrc c (Nat.lt_succ_diag_r c)). destruct (src c) as [(i, cols)|] eqn:Es.
    2:{ destruct (IH st pivs F) as (Q & El & Q1 & Q2 & Q3 & Q4 & Q5); [lia|assumption| | | | |].
        - intros c' r Hc' E'. destruct (Nat.eq_dec c' c) as [->|]; [congruence|]. apply (HC c'); [lia|assumption].
        - intros j. rewrite Hp. unfold drop_old. destruct (Nat.ltb_spec j (S c)); destruct (Nat.ltb_spec j c); try lia; try reflexivity. replace j with c by lia. congruence.
        - intros j Hj. apply Hsrc. lia.
        - intros j1 j2 i c1 c2 H1 H2. apply Hinj; lia.
        - exists Q. rewrite El, (proj1 (Q3 c) Hc). split; [reflexivity|]. do 4 (split; [assumption|]). intros; apply Q5; lia. }
    destruct Hc as (Hlen & E). set (r := combine cols (st i)) in *.
    assert (Hr := HF c r E). destruct (zpivot_shape n c r Hr) as (x & r' & Er). destruct cols as [|sc cols]; [discriminate|].
    assert (sc = c). { unfold r in Er. destruct (st i); [discriminate|]. cbn [combine] in Er. injection Er; auto. } subst sc.
    unfold qload. rewrite (proj2 (Nat.eqb_eq _ _) Hlen). fold r.
    assert (Hr' := Hr). destruct Hr' as (ND & HLt & _).
    destruct (scatter_any n r ND HLt) as (dr & -> & L & V). cbn [obind].
    assert (Hcn' : (c < n)%nat) by lia.
    destruct (qreduce_ok n (above c F) c dr (above_zp n c F HF) L) as (s & m & Eq & Hm & HCs & HT & HS); [lia|intros j Hj; rewrite V; eapply zpivot_below; eassumption|].
    assert (Eq' : qreduce pivs n c dr = Some s).
    { rewrite <- Eq. unfold qreduce. rewrite (qloop_ext _ (above c F)); [reflexivity|]. intros j Hj. rewrite Hp. unfold drop_old, above. destruct (Nat.ltb_spec j (S c)); destruct (Nat.leb_spec j c); try lia; reflexivity. }
    rewrite Eq'. cbn [obind]. clear Eq Eq'.
    assert (HS' : span 0 (pset_of (above c F)) (fun j => m * rv r j - rv s j)). { eapply span_pt; [exact HS|]. intros j. cbn beta. rewrite V. reflexivity. }
    destruct (above_head n F c r s m HF Hr Hm HCs) as (y & s' & Ey); [intros t Ht; apply HT; assumption|assumption|].
    rewrite Ey. cbn iota. rewrite <- Ey.
    assert (Hpv : zpivot n c s). { rewrite Ey in *. apply zcanon_pivot; [assumption|]. intros t Ht. apply HT. assumption. }
    set (F' := pset F c s).
    assert (Hdom' : forall c', F' c' = None <-> F c' = None).
    { intros c'. unfold F', pset. destruct (Nat.eqb_spec c' c) as [->|]; [rewrite E; split; discriminate|tauto]. }
    destruct (IH (zeroed st i) (pset pivs c s) F') as (Q & El & Q1 & Q2 & Q3 & Q4 & Q5); [lia| | | | | |].
    + intros c' q. unfold F', pset. destruct (Nat.eqb_spec c' c) as [->|]; [intros [= <-]; assumption|apply HF].
    + intros c' q Hc' Eq. unfold F', pset in Eq. destruct (Nat.eqb_spec c' c) as [->|Hne'].
      * injection Eq as <-. split; [assumption|]. intros c2 Hc2 Hd. apply rv_notin. intros Hin. apply in_map_iff in Hin. destruct Hin as (t & Et & Ht).
        destruct (HT t Ht) as ((Hge & _) & HN). rewrite Et in *. unfold above in HN. destruct (Nat.leb_spec c2 c); [lia|]. apply Hd, Hdom', HN.
      * destruct (HC c' q) as (X1 & X3); [lia|assumption|]. split; [assumption|]. intros c2 Hc2 Hd. apply X3; [assumption|]. intros Hn. apply Hd, Hdom'. assumption.
    + intros j. unfold F', pset. unfold drop_old. destruct (Nat.eqb_spec j c) as [->|]; [destruct (Nat.ltb_spec c c); [lia|reflexivity]|]. rewrite Hp. unfold drop_old.
      destruct (Nat.ltb_spec j (S c)); destruct (Nat.ltb_spec j c); try lia; reflexivity.
    + intros j Hj. specialize (Hsrc j ltac:(lia)). destruct (src j) as [(i2, cols2)|] eqn:Ej.
      * destruct Hsrc as (X1 & X2). unfold zeroed. destruct (Nat.eqb_spec i2 i) as [->|].
        -- exfalso. assert (j = c) by (eapply Hinj; [lia| |exact Ej|exact Es]; lia). lia.
        -- split; [assumption|]. unfold F', pset. destruct (Nat.eqb_spec j c); [lia|assumption].
      * apply Hdom'. assumption.
    + intros j1 j2 i0 c1 c2 H1 H2. apply Hinj; lia.
    + exists Q. rewrite El. cbn [obind]. split.
      { rewrite Q5 by lia. unfold F', pset. rewrite Nat.eqb_refl. reflexivity. }
      split; [assumption|]. split; [assumption|]. split; [intros c'; rewrite <- Q3, Hdom'; reflexivity|].
      split; [intros v; rewrite <- (Q4 v); exact (replace_span n F c r s m HF E Hm HS' v)|].
      intros c' Hc'. rewrite Q5 by lia. unfold F', pset. destruct (Nat.eqb_spec c' c); [lia|reflexivity].
Qed.
Lemma omap_some {A} (l : list A) : omap (fun o => o) (map Some l) = Some l.
Proof. induction l as [|a l IH]; cbn [map omap]; [reflexivity|]. cbn [obind]. rewrite IH. reflexivity. Qed.
