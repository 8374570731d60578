(** One row: column steps, the whole reduction. *)
From Coq Require Import ZArith Arith List Bool Lia Znumtheory Setoid Morphisms Sorted.
From Verif Require Import ModInvModel LinSpec LaSpec LaModel LaProofs LaRowProofs LaSysProofs QlaSpec QlaModel QlaProofs.
Import ListNotations.
Open Scope Z_scope.

(** the row in the middle of the column loop: kept entries and the columns not yet seen *)
Definition mask (i : nat) (dr : list Z) : vec := fun j => if (j <? i)%nat then 0 else dv dr j.
Definition cur (i : nat) (dr : list Z) (kept : srow) : vec := fun j => rv kept j + mask i dr j.
Lemma mask_S i dr j : mask i dr j = (if (j =? i)%nat then dv dr i else 0) + mask (S i) dr j.
Proof.
  unfold mask. destruct (Nat.eqb_spec j i) as [E|]; destruct (Nat.ltb_spec j i); destruct (Nat.ltb_spec j (S i)); try lia. rewrite E. lia.
Qed.
Lemma lcm_div d x : d <> 0 -> x <> 0 -> Z.lcm d x / d <> 0 /\ Z.lcm d x / d * d = Z.lcm d x /\ Z.lcm d x / x * x = Z.lcm d x.
Proof.
  intros Hd Hx. destruct (Z.divide_lcm_l d x) as (a & Ea). destruct (Z.divide_lcm_r d x) as (b & Eb).
  assert (Hl : Z.lcm d x <> 0) by (intros E; apply Z.lcm_eq_0 in E; destruct E; contradiction).
  assert (E1 : Z.lcm d x / d = a) by (rewrite Ea; apply Z.div_mul; assumption). assert (E2 : Z.lcm d x / x = b) by (rewrite Eb; apply Z.div_mul; assumption).
  rewrite E1, E2. split; [intros ->; lia|]. split; symmetry; assumption.
Qed.
Lemma qcol_ok n pv i dr kept : length dr = n -> (i < n)%nat -> (forall r, pv = Some r -> zpivot n i r) ->
  exists dr' kept' m a, qcol pv i dr kept = Some (dr', kept') /\ length dr' = n /\ m <> 0 /\
  (forall j, m * cur i dr kept j - cur (S i) dr' kept' j = a * rvo pv j) /\
  (kept' = scale_kept m kept \/ pv = None /\ m = 1 /\ dv dr i <> 0 /\ kept' = kept ++ [(i, dv dr i)]).
Proof.
  intros HL Hi HP. unfold qcol. rewrite drd_dv by lia. cbn [obind]. destruct (Z.eqb_spec (dv dr i) 0) as [E0|E0].
  { exists dr, kept, 1, 0. split; [reflexivity|]. split; [assumption|]. split; [lia|]. split.
    - intros j. unfold cur. rewrite mask_S, E0. destruct (j =? i)%nat; lia.
    - left. unfold scale_kept. rewrite (map_ext _ (fun t => t)), map_id; [reflexivity|]. intros (c, x). cbn [fst snd]. f_equal. lia. }
  destruct pv as [r|].
  2:{ destruct (dwr_ok dr i 0) as (dr' & -> & L' & V'); [lia|]. cbn [obind]. exists dr', (kept ++ [(i, dv dr i)]), 1, 0. split; [reflexivity|]. split; [lia|]. split; [lia|]. split.
      - intros j. unfold cur. rewrite rv_app, (mask_S i dr). cbn [rv fst snd]. rewrite Nat.eqb_sym. destruct (Nat.eqb_spec i j) as [->|].
        + unfold mask. rewrite V'. destruct (Nat.ltb_spec j (S j)); lia.
        + unfold mask. rewrite V'. destruct (Nat.ltb_spec j (S i)); [lia|]. destruct (Nat.eqb_spec j i); lia.
      - right. auto. }
  specialize (HP r eq_refl). assert (HP' := HP). destruct HP' as (ND & HLt & x & r' & -> & Hx & Hgt). cbn [rvo]. destruct (Z.eqb_spec x 0); [contradiction|].
  assert (Hlead : rv ((i, x) :: r') i = x) by (apply rv_head; assumption).
  assert (Hbel : forall j, (j < i)%nat -> rv ((i, x) :: r') j = 0) by (intros; eapply zpivot_below; eassumption).
  destruct (Z.eqb_spec (dv dr i mod x) 0) as [Ed|Ed].
  - destruct (submul_ok (dv dr i / x) ((i, x) :: r') dr) as (dr' & -> & L' & V'); [intros t Ht; rewrite HL; auto|]. cbn [obind].
    exists dr', kept, 1, (dv dr i / x). split; [reflexivity|]. split; [lia|]. split; [lia|]. split.
    + assert (Hq : dv dr i / x * x = dv dr i) by (pose proof (Z.div_mod (dv dr i) x Hx); lia).
      intros j. unfold cur. rewrite (mask_S i dr). unfold mask. rewrite V'. destruct (Nat.eqb_spec j i) as [->|Hne].
      * rewrite Hlead. destruct (Nat.ltb_spec i (S i)); lia.
      * destruct (Nat.ltb_spec j (S i)); [|lia]. rewrite Hbel by lia. lia.
    + left. unfold scale_kept. rewrite (map_ext _ (fun t => t)), map_id; [reflexivity|]. intros (c, y). cbn [fst snd]. f_equal. lia.
  - destruct (lcm_div (dv dr i) x E0 Hx) as (H1 & H2 & H3). cbv zeta. set (m1 := Z.lcm (dv dr i) x / dv dr i) in *. set (m2 := Z.lcm (dv dr i) x / x) in *.
    destruct (scale_after_ok i m1 dr) as (L1 & V1).
    destruct (submul_ok m2 ((i, x) :: r') (scale_after i m1 dr)) as (dr' & -> & L' & V'); [intros t Ht; rewrite L1, HL; auto|]. cbn [obind].
    exists dr', (scale_kept m1 kept), m1, m2. split; [reflexivity|]. split; [lia|]. split; [assumption|]. split; [|left; reflexivity].
    intros j. unfold cur. rewrite (mask_S i dr), rv_scale. unfold mask. rewrite V', V1. destruct (Nat.eqb_spec j i) as [->|Hne].
    + rewrite Hlead. destruct (Nat.ltb_spec i (S i)); [|lia]. lia.
    + destruct (Nat.ltb_spec j (S i)).
      * rewrite Hbel by lia. lia.
      * destruct (Nat.leb_spec j i); lia.
Qed.

(** the entries kept: increasing columns in [lo, i), nonzero *)
Definition kept_ok (lo i : nat) (kept : srow) : Prop := zcanon kept /\ forall t, In t kept -> (lo <= fst t < i)%nat.
Lemma kept_scale lo i m kept : m <> 0 -> kept_ok lo i kept -> kept_ok lo (S i) (scale_kept m kept).
Proof. intros Hm (H1 & H2). split; [apply zcanon_scale; assumption|]. intros t Ht. apply in_scale_fst in Ht. destruct Ht as (u & Hu & ->). specialize (H2 u Hu). lia. Qed.
Lemma kept_snoc lo i x kept : x <> 0 -> (lo <= i)%nat -> kept_ok lo i kept -> kept_ok lo (S i) (kept ++ [(i, x)]).
Proof.
  intros Hx Hlo ((H1 & H1') & H2). split; [split|].
  - rewrite map_app. cbn [map fst]. assert (HB : forall c, In c (map fst kept) -> (c < i)%nat). { intros c Hc. apply in_map_iff in Hc. destruct Hc as (t & <- & Ht). specialize (H2 t Ht). lia. }
    clear - H1 HB. induction (map fst kept) as [|a l IH]; cbn [app]; [repeat constructor|]. apply StronglySorted_inv in H1. destruct H1 as (H1 & HF). constructor.
    + apply IH; [assumption|]. intros c Hc. apply HB. right. assumption.
    + apply Forall_app. split; [assumption|]. constructor; [apply HB; left; reflexivity|constructor].
  - intros t Ht. apply in_app_or in Ht. destruct Ht as [Ht|[<-|[]]]; [auto|exact Hx].
  - intros t Ht. apply in_app_or in Ht. destruct Ht as [Ht|[<-|[]]]; [specialize (H2 t Ht); lia|cbn [fst]; lia].
Qed.
Lemma qcol_kept (pv : option srow) lo i dr kept kept' m : kept_ok lo i kept -> m <> 0 -> (pv = None -> (lo <= i)%nat) ->
  (kept' = scale_kept m kept \/ pv = None /\ m = 1 /\ dv dr i <> 0 /\ kept' = kept ++ [(i, dv dr i)]) -> kept_ok lo (S i) kept'.
Proof. intros HK Hm Hlo [->|(E & _ & Hd & ->)]; [apply kept_scale; assumption|]. apply kept_snoc; auto. Qed.

Lemma qloop_ok n P : zpivots n P -> forall cnt i dr kept lo, length dr = n -> (i + cnt <= n)%nat -> kept_ok lo i kept -> (forall c, (i <= c < i + cnt)%nat -> P c = None -> (lo <= c)%nat) ->
  exists dr' kept' m, qloop P cnt i dr kept = Some (dr', kept') /\ length dr' = n /\ m <> 0 /\ kept_ok lo (i + cnt) kept' /\
  span 0 (pset_of P) (fun j => m * cur i dr kept j - cur (i + cnt) dr' kept' j) /\
  (forall t, In t kept' -> (exists u, In u kept /\ fst t = fst u) \/ (i <= fst t)%nat /\ P (fst t) = None).
Proof.
  intros HP. induction cnt as [|cnt IH]; intros i dr kept lo HL Hi HK Hlo; cbn [qloop].
  - exists dr, kept, 1. rewrite Nat.add_0_r. split; [reflexivity|]. split; [assumption|]. split; [lia|]. split; [assumption|]. split; [|intros t Ht; left; exists t; auto].
    eapply span_pt; [apply span_zero|]. intros j. unfold vzero. lia.
  - destruct (qcol_ok n (P i) i dr kept HL) as (d1 & k1 & m1 & a & -> & L1 & Hm1 & V1 & C1); [lia|intros r E; apply HP; assumption|]. cbn [obind fst snd].
    assert (HK1 : kept_ok lo (S i) k1). { eapply qcol_kept; [exact HK|exact Hm1| |exact C1]. intros E. apply Hlo; [lia|assumption]. }
    destruct (IH (S i) d1 k1 lo L1) as (d2 & k2 & m2 & E2 & L2 & Hm2 & HK2 & S2 & T2); [lia|assumption|intros c Hc E; apply Hlo; [lia|assumption]|].
    replace (S i + cnt)%nat with (i + S cnt)%nat in * by lia.
    exists d2, k2, (m2 * m1). split; [exact E2|]. split; [assumption|]. split; [nia|]. split; [assumption|]. split.
    + assert (HS : span 0 (pset_of P) (fun j => a * rvo (P i) j)).
      { destruct (P i) as [r|] eqn:E; cbn [rvo]; [apply span_scale, span_in; exists i, r; auto|]. eapply span_pt; [apply span_zero|]. intros j. unfold vzero. lia. }
      eapply span_pt; [apply (span_lin 0 _ m2 _ _ HS S2)|]. intros j. cbn beta. rewrite <- V1. ring.
    + intros t Ht. destruct (T2 t Ht) as [(u & Hu & E)|(Hge & E)]; [|right; split; [lia|assumption]]. rewrite E. destruct C1 as [->|(EN & _ & _ & ->)].
      * apply in_scale_fst in Hu. destruct Hu as (w & Hw & Ew). left. exists w. auto.
      * apply in_app_or in Hu. destruct Hu as [Hu|[<-|[]]]; [left; exists u; auto|]. right. cbn [fst]. split; [lia|assumption].
Qed.

(** ** The whole reduction, without other threads *)
Lemma qreduce_ok n P dpiv dr : zpivots n P -> length dr = n -> (dpiv <= n)%nat -> (forall j, (j < dpiv)%nat -> dv dr j = 0) ->
  exists r m, qreduce P n dpiv dr = Some r /\ m <> 0 /\ zcanon r /\ (forall t, In t r -> (dpiv <= fst t < n)%nat /\ P (fst t) = None) /\
  span 0 (pset_of P) (fun j => m * dv dr j - rv r j).
Proof.
  intros HP HL Hd Hz. destruct (qloop_ok n P HP (n - dpiv) dpiv dr [] dpiv HL) as (d1 & k1 & m & E & L1 & Hm & (HK1 & HK2) & HS & HT); [lia| |intros; lia|].
  { split; [split; [constructor|intros t []]|intros t []]. }
  unfold qreduce. rewrite E. cbn [obind snd]. exists k1, m. split; [reflexivity|]. split; [assumption|]. split; [assumption|].
  replace (dpiv + (n - dpiv))%nat with n in * by lia. split.
  - intros t Ht. split; [auto|]. destruct (HT t Ht) as [(u & [] & _)|(_ & H)]. assumption.
  - eapply span_pt; [exact HS|]. intros j. cbn beta. unfold cur, mask. cbn [rv]. destruct (Nat.ltb_spec j dpiv); destruct (Nat.ltb_spec j n); try lia.
    + rewrite Hz by assumption. lia.
    + rewrite !dv_overflow by lia. lia.
Qed.
