(** Reduced families with primitive integer rows: uniqueness; inter-reduction; the two variants. *)
From Coq Require Import ZArith Arith List Bool Lia Znumtheory Setoid Morphisms Sorted.
From Verif Require Import ModInvModel LinSpec LaSpec LaModel LaProofs LaRowProofs LaSysProofs QlaSpec QlaModel QlaProofs QlaRow QlaSys.
Import ListNotations.
Open Scope Z_scope.

Lemma zspan_comb n P v : zpivots n P -> span 0 (pset_of P) v -> exists a, forall j, v j = comb P a n j.
Proof.
  intros HP Hv. revert v Hv. apply (span_ind_lin 0 (pset_of P) (fun v => exists a, forall j, v j = comb P a n j)).
  - intros u (c & r & E & ->). exists (fun c' => if (c' =? c)%nat then 1 else 0). intros j. symmetry. apply eqp0.
    rewrite (comb_single P 0 _ n c j (zpivot_lt n c r (HP c r E))).
    + rewrite Nat.eqb_refl, E. cbn [rvo]. apply eqp0. ring.
    + intros c' _ Hne. destruct (Nat.eqb_spec c' c); [contradiction|]. apply eqp0. ring.
  - exists (fun _ => 0). intros j. symmetry. apply eqp0, comb_zero. intros. apply eqp0. ring.
  - intros x u w (a & Ha) (b & Hb). exists (fun c => x * a c + b c). intros j. rewrite Ha, Hb. symmetry. apply eqp0, comb_lin.
  - intros u w (a & Ha) E. exists a. intros j. rewrite <- Ha. symmetry. apply eqp0, E.
Qed.
Lemma zrvo_below n P c j : zpivots n P -> (j < c)%nat -> rvo (P c) j = 0.
Proof. intros HP Hj. destruct (P c) as [r|] eqn:E; [|reflexivity]. cbn [rvo]. eapply zpivot_below; [eapply HP; eassumption|assumption]. Qed.
Lemma zcomb_coefs n P a v m : zpivots n P -> (forall j, v j = comb P a n j) ->
  (forall c, (c < m)%nat -> P c <> None -> v c = 0) -> forall c, (c < m)%nat -> P c <> None -> a c = 0.
Proof.
  intros HP Hv Hz c. induction c as [c IH] using lt_wf_ind. intros Hcm Hc. destruct (P c) as [r|] eqn:E; [|contradiction].
  assert (H : v c = a c * rvo (P c) c).
  { rewrite Hv. apply eqp0. apply comb_single; [exact (zpivot_lt n c r (HP c r E))|]. intros c' Hc' Hne. apply eqp0. destruct (Nat.lt_ge_cases c' c) as [Hl|Hg].
    - destruct (P c') as [r'|] eqn:E'; [|cbn [rvo]; unfold vzero; ring]. rewrite (IH c') by (try lia; congruence). ring.
    - rewrite (zrvo_below n P c' c) by (auto; lia). ring. }
  rewrite Hz in H by congruence. rewrite E in H. cbn [rvo] in H. pose proof (zpivot_lead n c r (HP c r E)). nia.
Qed.
Lemma zspan_zero n P v : zpivots n P -> qspan (pset_of P) v -> (forall c, P c <> None -> v c = 0) -> forall j, v j = 0.
Proof.
  intros HP (x & Hx & Hv) Hz j. destruct (zspan_comb n P _ HP Hv) as (a & Ha).
  assert (x * v j = 0); [|nia]. rewrite Ha. apply eqp0, comb_zero. intros c Hc. apply eqp0.
  destruct (P c) as [r|] eqn:E; [|cbn [rvo]; unfold vzero; ring].
  rewrite (zcomb_coefs n P a _ n HP Ha) by (auto; try congruence; intros; cbn beta; rewrite Hz by assumption; ring). ring.
Qed.
Lemma zspan_restrict n P v m : zpivots n P -> qspan (pset_of P) v -> (forall c, (c < m)%nat -> P c <> None -> v c = 0) ->
  qspan (pset_of (drop_old m P)) v.
Proof.
  intros HP (x & Hx & Hv) Hz. destruct (zspan_comb n P _ HP Hv) as (a & Ha). exists x. split; [assumption|].
  eapply span_pt; [|intros j; symmetry; apply Ha].
  assert (G : forall n', span 0 (pset_of (drop_old m P)) (comb P a n')); [|apply G].
  induction n' as [|n' IH]; [apply span_zero|].
  change (comb P a (S n')) with (fun j => a n' * rvo (P n') j + comb P a n' j).
  apply (span_add 0 _ (fun j => a n' * rvo (P n') j)); [|assumption].
  destruct (P n') as [r|] eqn:E.
  - destruct (Nat.lt_ge_cases n' m) as [Hl|Hg].
    + eapply span_pt; [apply span_zero|]. intros j. rewrite (zcomb_coefs n P a _ m HP Ha) by (auto; try congruence; intros; cbn beta; rewrite Hz by assumption; ring). unfold vzero. ring.
    + apply span_scale, span_in. exists n', r. split; [|reflexivity]. unfold drop_old. destruct (Nat.ltb_spec n' m); [lia|assumption].
  - eapply span_pt; [apply span_zero|]. intros j. cbn [rvo]. unfold vzero. ring.
Qed.
Lemma qspan_at (S : vec -> Prop) v c : qspan S v -> (forall u, S u -> u c = 0) -> v c = 0.
Proof.
  intros (x & Hx & Hv) H. assert (E : x * v c = 0); [|nia]. apply eqp0. apply (span_at 0 S (fun j => x * v j) c Hv). intros u Hu. apply eqp0. auto.
Qed.
Lemma zsame_leads n P Q c : zpivots n P -> zpivots n Q -> same_qspan (pset_of P) (pset_of Q) -> P c <> None -> Q c <> None.
Proof.
  intros HP HQ HS Hc HQc. destruct (P c) as [r|] eqn:E; [|contradiction].
  assert (Hr : qspan (pset_of Q) (rv r)) by (apply HS, qspan_in; exists c, r; auto).
  assert (Hlow : forall j, (j < c)%nat -> rv r j = 0) by (intros; eapply zpivot_below; eauto).
  apply (zspan_restrict n Q _ c HQ) in Hr; [|intros j Hj _; apply Hlow; assumption].
  apply (zpivot_lead n c r (HP c r E)). apply (qspan_at _ _ c Hr).
  intros u (c' & r' & E' & ->). unfold drop_old in E'. destruct (Nat.ltb_spec c' c); [discriminate|].
  destruct (Nat.eq_dec c' c) as [->|]; [congruence|]. apply (zpivot_below n c' r'); [auto|lia].
Qed.
(** two primitive rows on the same line with positive first coefficients are equal *)
Lemma prim_divides a r s x y : NoDup (map fst r) -> (forall j, x * rv r j = y * rv s j) -> Z.gcd x y = 1 -> zprim r -> a = y -> a = 1 \/ a = -1.
Proof.
  intros ND H Hg (Hp & _) ->. apply Hp. intros t Ht. apply (Z.gauss y x); [|rewrite Z.gcd_comm; assumption]. rewrite <- (rv_in r t ND Ht), H. apply Z.divide_factor_l.
Qed.
Lemma prim_eq c r s : zcanon r -> zcanon s -> zprim r -> zprim s -> (exists x r', r = (c, x) :: r') -> (exists y s', s = (c, y) :: s') ->
  (forall j, rv s c * rv r j = rv r c * rv s j) -> r = s.
Proof.
  intros CR CS PR PS (x & r' & Er) (y & s' & Es) H. apply zcanon_eq; [assumption|assumption|].
  assert (Hx : rv r c = x) by (rewrite Er in *; apply rv_head, zcanon_nodup, CR). assert (Hy : rv s c = y) by (rewrite Es in *; apply rv_head, zcanon_nodup, CS).
  assert (Px : 0 < x). { destruct PR as (_ & c' & x' & q & E & Hp). rewrite Er in E. injection E as _ -> _. assumption. }
  assert (Py : 0 < y). { destruct PS as (_ & c' & x' & q & E & Hp). rewrite Es in E. injection E as _ -> _. assumption. }
  rewrite Hx, Hy in H. clear Hx Hy.
  assert (Hg0 : Z.gcd y x <> 0) by (intros E; apply Z.gcd_eq_0 in E; lia). assert (Hgp : 0 < Z.gcd y x) by (pose proof (Z.gcd_nonneg y x); lia).
  destruct (Z.gcd_divide_l y x) as (y1 & Ey). destruct (Z.gcd_divide_r y x) as (x1 & Ex).
  assert (Hco : Z.gcd y1 x1 = 1).
  { assert (E := Z.gcd_div_gcd y x (Z.gcd y x) Hg0 eq_refl). 
    replace (y / Z.gcd y x) with y1 in E by (rewrite Ey at 1; rewrite Z.div_mul; auto). replace (x / Z.gcd y x) with x1 in E by (rewrite Ex at 1; rewrite Z.div_mul; auto). exact E. }
  assert (H1 : forall j, y1 * rv r j = x1 * rv s j).
  { intros j. specialize (H j). apply (Z.mul_reg_l _ _ (Z.gcd y x) Hg0).
    transitivity (y1 * Z.gcd y x * rv r j); [ring|]. transitivity (x1 * Z.gcd y x * rv s j); [|ring]. rewrite <- Ey, <- Ex. exact H. }
  assert (Px1 : 0 < x1) by nia. assert (Py1 : 0 < y1) by nia.
  assert (X1 : x1 = 1). { destruct (prim_divides x1 r s y1 x1 (zcanon_nodup _ CR) H1 Hco PR eq_refl); lia. }
  assert (Y1 : y1 = 1). { rewrite Z.gcd_comm in Hco. destruct (prim_divides y1 s r x1 y1 (zcanon_nodup _ CS) (fun j => eq_sym (H1 j)) Hco PS eq_refl); lia. }
  intros j. specialize (H1 j). rewrite X1, Y1 in H1. lia.
Qed.
Lemma zpivot_shape n c r : zpivot n c r -> exists x r', r = (c, x) :: r'.
Proof. intros (_ & _ & x & r' & E & _). eauto. Qed.
Lemma qreduced_unique n P Q : qreduced n P -> qreduced n Q -> same_qspan (pset_of P) (pset_of Q) -> forall c, P c = Q c.
Proof.
  intros (HP & RP) (HQ & RQ) HS c. assert (HS' : same_qspan (pset_of Q) (pset_of P)) by (intros v; symmetry; apply HS).
  destruct (P c) as [r|] eqn:E.
  - assert (Q c <> None) by (apply (zsame_leads n P Q c); auto; congruence). destruct (Q c) as [q|] eqn:E'; [|contradiction].
    f_equal. destruct (RP c r E) as (C1 & P1 & Z1). destruct (RQ c q E') as (C2 & P2 & Z2). apply (prim_eq c r q C1 C2 P1 P2); [exact (zpivot_shape n c r (HP c r E))|exact (zpivot_shape n c q (HQ c q E'))|].
    intros j. assert (D : rv q c * rv r j - rv r c * rv q j = 0); [|lia].
    apply (zspan_zero n Q (fun j => rv q c * rv r j - rv r c * rv q j) HQ).
    + apply (qspan_sub _ (fun j => rv q c * rv r j) (fun j => rv r c * rv q j)); apply qspan_scale; [apply HS|]; apply qspan_in; eexists _, _; eauto.
    + intros c' Hc'. assert (P c' <> None) by (apply (zsame_leads n Q P c'); auto). destruct (Nat.eq_dec c' c) as [->|Hne]; [lia|]. rewrite (Z1 c'), (Z2 c') by auto. lia.
  - destruct (Q c) as [q|] eqn:E'; [|reflexivity]. exfalso. apply (zsame_leads n Q P c); auto. congruence.
Qed.

(** ** Inter-reduction *)
Lemma qloop_ext P Q cnt : forall i dr kept, (forall j, (i <= j)%nat -> P j = Q j) -> qloop P cnt i dr kept = qloop Q cnt i dr kept.
Proof.
  induction cnt as [|cnt IH]; intros i dr kept H; cbn [qloop]; [reflexivity|]. rewrite H by lia.
  destruct (qcol (Q i) i dr kept) as [s|]; cbn [obind]; [|reflexivity]. apply IH. intros j Hj. apply H. lia.
Qed.
Definition above (c : nat) (P : nat -> option srow) : nat -> option srow := fun j => if (j <=? c)%nat then None else P j.
Lemma above_zp n c P : zpivots n P -> zpivots n (above c P).
Proof. intros HP c' r. unfold above. destruct (c' <=? c)%nat; [discriminate|apply HP]. Qed.
(** replacing the row of column c by a nonzero multiple of it, up to rows above *)
Lemma replace_span n P c r r2 m : zpivots n P -> P c = Some r -> m <> 0 -> span 0 (pset_of (above c P)) (fun j => m * rv r j - rv r2 j) ->
  same_qspan (pset_of P) (pset_of (pset P c r2)).
Proof.
  intros HP E Hm HS v.
  assert (HA1 : forall u, pset_of (above c P) u -> qspan (pset_of P) u).
  { intros u (c' & q & Eq & ->). unfold above in Eq. destruct (Nat.leb_spec c' c); [discriminate|]. apply qspan_in. exists c', q. auto. }
  assert (HA2 : forall u, pset_of (above c P) u -> qspan (pset_of (pset P c r2)) u).
  { intros u (c' & q & Eq & ->). unfold above in Eq. destruct (Nat.leb_spec c' c); [discriminate|]. apply qspan_in. exists c', q. split; [|reflexivity]. unfold pset. destruct (Nat.eqb_spec c' c); [lia|assumption]. }
  split; apply qspan_mono; intros u (c' & q & Eq & ->).
  - destruct (Nat.eq_dec c' c) as [->|Hne].
    + rewrite E in Eq. injection Eq as <-. apply (qspan_unscale _ m _ Hm).
      eapply qspan_pt; [apply (qspan_add _ (rv r2) (fun j => m * rv r j - rv r2 j)); [|exact (qspan_of_span _ _ _ HA2 HS)]|].
      * apply qspan_in. exists c, r2. unfold pset. rewrite Nat.eqb_refl. auto.
      * intros j. cbn beta. ring.
    + apply qspan_in. exists c', q. split; [|reflexivity]. unfold pset. destruct (Nat.eqb_spec c' c); [contradiction|assumption].
  - unfold pset in Eq. destruct (Nat.eqb_spec c' c) as [->|Hne].
    + injection Eq as <-. eapply qspan_pt; [apply (qspan_sub _ (fun j => m * rv r j) (fun j => m * rv r j - rv r2 j)); [|exact (qspan_of_span _ _ _ HA1 HS)]|].
      * apply qspan_scale, qspan_in. exists c, r. auto.
      * intros j. cbn beta. ring.
    + apply qspan_in. exists c', q. auto.
Qed.
(** a row reduced by the rows above: leading column kept *)
Lemma above_head n P c r r2 m : zpivots n P -> zpivot n c r -> m <> 0 -> zcanon r2 -> (forall t, In t r2 -> (c <= fst t)%nat) ->
  span 0 (pset_of (above c P)) (fun j => m * rv r j - rv r2 j) -> exists x r3, r2 = (c, x) :: r3.
Proof.
  intros HP HR Hm HC HL HS. apply zcanon_head; [assumption| |].
  - intros j Hj. apply rv_notin. intros Hin. apply in_map_iff in Hin. destruct Hin as (t & <- & Ht). specialize (HL t Ht). lia.
  - assert (D : m * rv r c - rv r2 c = 0).
    { apply (qspan_at (pset_of (above c P)) (fun j => m * rv r j - rv r2 j) c (qspan_span _ _ HS)). intros u (c' & q & Eq & ->). unfold above in Eq. destruct (Nat.leb_spec c' c); [discriminate|].
      apply (zpivot_below n c' q); [auto|lia]. }
    pose proof (zpivot_lead n c r HR). nia.
Qed.
Lemma reduce_above n P c r : zpivots n P -> P c = Some r ->
  exists s m, (let? dr := scatter n r in qreduce (fun j => if (j =? c)%nat then None else P j) n c dr) = Some s /\ m <> 0 /\ zcanon s /\
  (forall t, In t s -> (c <= fst t < n)%nat /\ above c P (fst t) = None) /\ span 0 (pset_of (above c P)) (fun j => m * rv r j - rv s j) /\ exists x s', s = (c, x) :: s'.
Proof.
  intros HP E. assert (Hr := HP c r E). assert (Hcn := zpivot_lt n c r Hr). assert (Hr' := Hr). destruct Hr' as (ND & HLt & _).
  destruct (scatter_any n r ND HLt) as (dr & -> & L & V). cbn [obind].
  destruct (qreduce_ok n (above c P) c dr (above_zp n c P HP) L) as (s & m & Es & Hm & HC & HT & HS); [lia|intros j Hj; rewrite V; eapply zpivot_below; eassumption|].
  exists s, m. split.
  - rewrite <- Es. unfold qreduce. rewrite (qloop_ext _ (above c P)); [reflexivity|]. intros j Hj. unfold above. destruct (Nat.eqb_spec j c); destruct (Nat.leb_spec j c); try lia; reflexivity.
  - split; [assumption|]. split; [assumption|]. split; [assumption|].
    assert (HS' : span 0 (pset_of (above c P)) (fun j => m * rv r j - rv s j)). { eapply span_pt; [exact HS|]. intros j. cbn beta. rewrite V. reflexivity. }
    split; [assumption|]. eapply above_head; [exact HP|exact Hr|exact Hm|exact HC| |exact HS']. intros t Ht. apply HT. assumption.
Qed.
(** content removed: a row of the same line *)
Lemma strip_row n P c r s m : m <> 0 -> zcanon s -> (forall t, In t s -> (c <= fst t < n)%nat) -> (exists x s', s = (c, x) :: s') ->
  span 0 (pset_of (above c P)) (fun j => m * rv r j - rv s j) ->
  exists s2 k, strip s = Some s2 /\ k <> 0 /\ zcanon s2 /\ zprim s2 /\ zpivot n c s2 /\ map fst s2 = map fst s /\ (forall j, rv s j = k * rv s2 j) .
Proof.
  intros Hm HC HT (x & s' & Es) HS. destruct (strip_ok s) as (k & s2 & E & Hk & Ek & HP2). { exists c, x, s'. split; [assumption|]. apply (proj2 HC (c, x)). rewrite Es. left. reflexivity. }
  exists s2, k. split; [assumption|]. split; [assumption|]. assert (HC2 : zcanon s2) by (apply (zcanon_unscale k); rewrite <- Ek; assumption).
  split; [assumption|]. split; [assumption|]. assert (Hf : map fst s2 = map fst s) by (rewrite Ek, fst_scale; reflexivity). split.
  - destruct s2 as [|(c2, x2) s2]; [rewrite Es in Hf; discriminate|]. rewrite Es in Hf. cbn [map fst] in Hf. injection Hf as Hc _. subst c2. apply zcanon_pivot; [assumption|].
    intros t Ht. apply (in_scale_to k) in Ht. destruct Ht as (u & Hu & <-). rewrite <- Ek in Hu. apply HT. assumption.
  - split; [assumption|]. intros j. rewrite Ek. apply rv_scale.
Qed.
(** same line: the span with rows above is not changed *)
Lemma replace_line n P c r s s2 m k : zpivots n P -> P c = Some r -> m <> 0 -> k <> 0 -> (forall j, rv s j = k * rv s2 j) ->
  span 0 (pset_of (above c P)) (fun j => m * rv r j - rv s j) -> same_qspan (pset_of P) (pset_of (pset P c s2)).
Proof.
  intros HP E Hm Hk HV HS v. rewrite (replace_span n P c r s m HP E Hm HS v).
  split; apply qspan_mono; intros u (c' & q & Eq & ->); unfold pset in Eq; destruct (Nat.eqb_spec c' c) as [->|Hne].
  - injection Eq as <-. eapply qspan_pt; [apply (qspan_scale _ k (rv s2)), qspan_in; exists c, s2; unfold pset; rewrite Nat.eqb_refl; auto|]. intros j. symmetry. apply HV.
  - apply qspan_in. exists c', q. split; [|reflexivity]. unfold pset. destruct (Nat.eqb_spec c' c); [contradiction|assumption].
  - injection Eq as <-. apply (qspan_unscale _ k _ Hk). eapply qspan_pt; [apply qspan_in; exists c, s; unfold pset; rewrite Nat.eqb_refl; auto|]. intros j. apply HV.
  - apply qspan_in. exists c', q. split; [|reflexivity]. unfold pset. destruct (Nat.eqb_spec c' c); [contradiction|assumption].
Qed.
Definition qclean (m : nat) (P : nat -> option srow) : Prop :=
  forall c r, (m <= c)%nat -> P c = Some r -> zcanon r /\ zprim r /\ forall c', c' <> c -> P c' <> None -> rv r c' = 0.
Lemma qinter_ok ncl n : forall cnt P, (ncl + cnt <= n)%nat -> zpivots n P -> qclean (ncl + cnt) P ->
  exists Q, qinter ncl n cnt P = Some (rows_desc ncl Q cnt) /\ zpivots n Q /\ qclean ncl Q /\ (forall c, P c = None <-> Q c = None) /\
  same_qspan (pset_of P) (pset_of Q) /\ (forall c, (ncl + cnt <= c)%nat -> Q c = P c).
Proof.
  induction cnt as [|cnt IH]; intros P Hcn HP HC; cbn [qinter rows_desc].
  - rewrite Nat.add_0_r in *. exists P. split; [reflexivity|]. split; [assumption|]. split; [assumption|]. split; [tauto|]. split; [intros v; tauto|]. auto.
  - set (c := (ncl + cnt)%nat) in *. destruct (P c) as [r|] eqn:E.
    2:{ destruct (IH P) as (Q & El & Q1 & Q2 & Q3 & Q4 & Q5); auto; [lia| |].
        - intros c' r Hc' E'. destruct (Nat.eq_dec c' c) as [->|]; [congruence|]. apply (HC c'); [lia|assumption].
        - exists Q. rewrite El, (proj1 (Q3 c) E). split; [reflexivity|]. split; [assumption|]. split; [assumption|]. split; [assumption|]. split; [assumption|]. intros; apply Q5; lia. }
    assert (Hr := HP c r E). destruct (zpivot_shape n c r Hr) as (x & r' & Er).
    destruct (reduce_above n P c r HP E) as (s & m & Es & Hm & HCs & HT & HS & Hh).
    destruct (strip_row n P c r s m Hm HCs) as (s2 & k & Est & Hk & HC2 & HP2 & Hpv & Hf & HV); [intros t Ht; apply HT; assumption|assumption|assumption|].
    rewrite Er. cbn iota. rewrite <- Er. cbn [fst]. destruct (scatter n r) as [dr|]; cbn [obind] in *; [|discriminate]. rewrite Es. cbn [obind].
    destruct Hh as (y & s' & Ey). rewrite Ey. cbn iota. rewrite <- Ey. rewrite Est. cbn [obind].
    set (P' := pset P c s2). assert (HP' : zpivots n P').
    { intros c' q. unfold P', pset. destruct (Nat.eqb_spec c' c) as [->|]; [intros [= <-]; assumption|apply HP]. }
    assert (Hdom' : forall c', P' c' = None <-> P c' = None).
    { intros c'. unfold P', pset. destruct (Nat.eqb_spec c' c) as [->|]; [rewrite E; split; discriminate|tauto]. }
    assert (HSP : same_qspan (pset_of P) (pset_of P')) by exact (replace_line n P c r s s2 m k HP E Hm Hk HV HS).
    destruct (IH P') as (Q & El & Q1 & Q2 & Q3 & Q4 & Q5); auto; [lia| |].
    + intros c' q Hc' Eq. unfold P', pset in Eq. destruct (Nat.eqb_spec c' c) as [->|Hne'].
      * injection Eq as <-. split; [assumption|]. split; [assumption|]. intros c2 Hc2 Hd. apply rv_notin. rewrite Hf. intros Hin. apply in_map_iff in Hin. destruct Hin as (t & Et & Ht).
        destruct (HT t Ht) as ((Hge & _) & HN). rewrite Et in *. unfold above in HN. destruct (Nat.leb_spec c2 c); [lia|]. apply Hd, Hdom', HN.
      * destruct (HC c' q) as (X1 & X2 & X3); [lia|assumption|]. split; [assumption|]. split; [assumption|]. intros c2 Hc2 Hd. apply X3; [assumption|]. intros Hn. apply Hd, Hdom'. assumption.
    + exists Q. rewrite El. cbn [obind]. split.
      { rewrite Q5 by (fold c; lia). unfold P', pset. rewrite Nat.eqb_refl. reflexivity. }
      split; [assumption|]. split; [assumption|]. split; [intros c'; rewrite <- Q3, Hdom'; reflexivity|].
      split; [intros v; rewrite (HSP v), (Q4 v); reflexivity|].
      intros c' Hc'. rewrite Q5 by lia. unfold P', pset. destruct (Nat.eqb_spec c' c); [lia|reflexivity].
Qed.

(** ** The whole function *)
Lemma qechelon_core ncl n rr tr sched : qmatrix ncl n rr tr ->
  forall s, qsys_run n sched (qinit rr tr) = Some s -> forallb qfinished (qs_rows s) = true ->
  exists Q, qinter ncl n (n - ncl) (drop_old ncl (qs_pivs s)) = Some (rows_desc ncl Q (n - ncl)) /\
  qreduced n Q /\ (forall c, Q c <> None -> (ncl <= c < n)%nat) /\
  (forall v, qspan (pset_of Q) v <-> qspan (gens rr tr) v /\ forall c, (c < ncl)%nat -> v c = 0) /\
  same_qspan (gens rr tr) (fun v => pset_of rr v \/ pset_of Q v).
Proof.
  intros HM s Es HF. destruct (qrun_ok ncl n rr tr sched HM) as (s' & Es' & HI). assert (s' = s) by congruence. subst s'.
  pose proof (qfinished_span _ _ _ _ _ _ HI HF) as HS. assert (HG := fun u => gens_pivs ncl n rr tr _ s u HI). destruct HI as (HPv & HLe & _). destruct HM as (Hle & Hrr & Hrok & _).
  set (P := qs_pivs s) in *.
  assert (HPd : zpivots n (drop_old ncl P)). { intros c r. unfold drop_old. destruct (c <? ncl)%nat; [discriminate|apply HPv]. }
  destruct (qinter_ok ncl n (n - ncl) (drop_old ncl P)) as (Q & El & Q1 & Q2 & Q3 & Q4 & Q5); auto; [lia| |].
  - intros c r Hc Ec. exfalso. pose proof (zpivot_lt n c r (HPd c r Ec)). lia.
  - exists Q. split; [assumption|].
    assert (Hdom : forall c, Q c <> None -> (ncl <= c < n)%nat).
    { intros c Hc. split.
      - destruct (Nat.lt_ge_cases c ncl) as [Hl|]; [|assumption]. exfalso. apply Hc, Q3. unfold drop_old. destruct (Nat.ltb_spec c ncl); [reflexivity|lia].
      - destruct (Q c) as [r|] eqn:E; [|contradiction]. exact (zpivot_lt n c r (Q1 c r E)). }
    split; [split; [assumption|intros c r E; apply Q2; [apply Hdom; congruence|assumption]]|]. split; [assumption|].
    assert (HPg : forall v, qspan (pset_of (drop_old ncl P)) v -> qspan (gens rr tr) v).
    { intros v. apply qspan_mono. intros u (c & r & E & ->). unfold drop_old in E. destruct (c <? ncl)%nat; [discriminate|]. apply HG. exists c, r. auto. }
    split.
    + intros v. rewrite <- (Q4 v). split.
      * intros Hv. split; [auto|]. intros c Hc. apply (qspan_at _ v c Hv). intros u (c' & r & E & ->). assert (E' := E). unfold drop_old in E. destruct (Nat.ltb_spec c' ncl); [discriminate|].
        apply (zpivot_below n c' r); [auto|lia].
      * intros (Hv & Hz). apply HS in Hv. apply (zspan_restrict n P v ncl HPv Hv). auto.
    + intros v. split; apply qspan_mono; intros u.
      * intros Hg. assert (Hu : qspan (pset_of P) u) by (apply HS, qspan_in; assumption). eapply qspan_mono; [|exact Hu]. intros w (c & r & E & ->).
        destruct (Nat.lt_ge_cases c ncl) as [Hl|Hge].
        -- apply qspan_in. left. destruct (rr c) as [q|] eqn:Er; [|exfalso; apply (proj1 (Hrr c) Hl); assumption]. exists c, q. split; [assumption|]. apply HLe in Er. congruence.
        -- assert (Hw : qspan (pset_of (drop_old ncl P)) (rv r)). { apply qspan_in. exists c, r. unfold drop_old. destruct (Nat.ltb_spec c ncl); [lia|auto]. }
           apply Q4 in Hw. eapply qspan_mono; [|exact Hw]. intros z Hz. apply qspan_in. right. assumption.
      * intros [Hu|Hu]; [apply qspan_in; left; assumption|]. apply HPg, Q4, qspan_in. assumption.
Qed.
