(** Proofs about the model of la_qq.c. *)
From Coq Require Import ZArith Arith List Bool Lia Znumtheory Setoid Morphisms Sorted.
From Verif Require Import ModInvModel LinSpec LaSpec LaModel LaProofs LaRowProofs LaSysProofs ImportModel ImportProps QlaSpec QlaModel.
Import ListNotations.
Open Scope Z_scope.

(** ** Rational combinations *)
Lemma eqp0 a b : eqp 0 a b <-> a = b.
Proof. split; [intros (q & H); lia|intros ->; reflexivity]. Qed.
Lemma span_pt S u v : span 0 S u -> (forall j, u j = v j) -> span 0 S v.
Proof. intros H E. eapply span_eq; [exact H|]. intros j. apply eqp0, E. Qed.
Lemma qspan_pt S u v : qspan S u -> (forall j, u j = v j) -> qspan S v.
Proof. intros (x & Hx & H) E. exists x. split; [assumption|]. eapply span_pt; [exact H|]. intros j. cbn beta. rewrite E. reflexivity. Qed.
Lemma qspan_span S v : span 0 S v -> qspan S v.
Proof. intros H. exists 1. split; [lia|]. eapply span_pt; [exact H|]. intros j. cbn beta. lia. Qed.
Lemma qspan_in (S : vec -> Prop) v : S v -> qspan S v.
Proof. intros H. apply qspan_span, span_in, H. Qed.
Lemma qspan_unscale S k v : k <> 0 -> qspan S (fun j => k * v j) -> qspan S v.
Proof. intros Hk (x & Hx & H). exists (x * k). split; [nia|]. eapply span_pt; [exact H|]. intros j. cbn beta. ring. Qed.
Lemma qspan_lin S a u v : qspan S u -> qspan S v -> qspan S (fun j => a * u j + v j).
Proof.
  intros (x & Hx & H) (y & Hy & H'). exists (x * y). split; [nia|].
  eapply span_pt; [exact (span_lin 0 S (y * a) (fun j => x * u j) (fun j => x * (y * v j)) H (span_scale 0 S x (fun j => y * v j) H'))|]. intros j. cbn beta. ring.
Qed.
Lemma qspan_scale S a u : qspan S u -> qspan S (fun j => a * u j).
Proof. intros H. eapply qspan_pt; [apply (qspan_lin S a u vzero H), qspan_span, span_zero|]. intros j. unfold vzero. ring. Qed.
Lemma qspan_add S u v : qspan S u -> qspan S v -> qspan S (fun j => u j + v j).
Proof. intros H H'. eapply qspan_pt; [apply (qspan_lin S 1 u v H H')|]. intros j. cbn beta. ring. Qed.
Lemma qspan_sub S u v : qspan S u -> qspan S v -> qspan S (fun j => u j - v j).
Proof. intros H H'. eapply qspan_pt; [apply (qspan_lin S (-1) v u H' H)|]. intros j. cbn beta. ring. Qed.
Lemma qspan_of_span (S T : vec -> Prop) v : (forall u, S u -> qspan T u) -> span 0 S v -> qspan T v.
Proof.
  intros H Hv. revert v Hv. apply span_ind_lin.
  - assumption.
  - apply qspan_span, span_zero.
  - intros a u v. apply qspan_lin.
  - intros u v Hu E. eapply qspan_pt; [exact Hu|]. intros j. apply eqp0, E.
Qed.
Lemma qspan_mono (S T : vec -> Prop) v : (forall u, S u -> qspan T u) -> qspan S v -> qspan T v.
Proof. intros H (x & Hx & Hv). apply (qspan_unscale T x v Hx). eapply qspan_of_span; eassumption. Qed.

(** ** Arrays *)
Lemma submul_ok m r : forall dr, (forall t, In t r -> (fst t < length dr)%nat) ->
  exists dr', submul_row m r dr = Some dr' /\ length dr' = length dr /\ forall j, dv dr' j = dv dr j - m * rv r j.
Proof.
  unfold submul_row. induction r as [|t r IH]; intros dr H; cbn [each rv].
  - exists dr. split; [reflexivity|]. split; [reflexivity|]. intros j. lia.
  - unfold submul1 at 1. rewrite drd_dv by (apply H; left; reflexivity). cbn [obind].
    destruct (dwr_ok dr (fst t) (dv dr (fst t) - m * snd t)) as (d1 & -> & L1 & V1); [apply H; left; reflexivity|]. cbn [obind].
    destruct (IH d1) as (d2 & E2 & L2 & V2); [intros u Hu; rewrite L1; apply H; right; assumption|].
    exists d2. split; [exact E2|]. split; [lia|]. intros j. rewrite V2, V1. rewrite Nat.eqb_sym. destruct (Nat.eqb_spec (fst t) j) as [<-|]; lia.
Qed.
Lemma scale_after_ok i m dr : length (scale_after i m dr) = length dr /\
  forall j, dv (scale_after i m dr) j = if (j <=? i)%nat then dv dr j else m * dv dr j.
Proof.
  unfold scale_after. split; [rewrite app_length, map_length, <- app_length, firstn_skipn; reflexivity|].
  intros j. unfold dv. revert i j. induction dr as [|d dr IH]; intros i j.
  - rewrite firstn_nil, skipn_nil. cbn [app map]. destruct j; cbn [nth]; destruct (_ <=? _)%nat; lia.
  - destruct j as [|j]; [reflexivity|]. cbn [firstn skipn app nth]. destruct i as [|i].
    + cbn [firstn skipn app]. change (nth j (map (Z.mul m) dr) 0 = m * nth j dr 0). replace 0 with (m * 0) at 1 by lia. apply map_nth.
    + rewrite IH. reflexivity.
Qed.
Lemma scatter_any n r : NoDup (map fst r) -> (forall t, In t r -> (fst t < n)%nat) ->
  exists dr, scatter n r = Some dr /\ length dr = n /\ forall j, dv dr j = rv r j.
Proof.
  intros ND HL. unfold scatter.
  assert (G : forall r dr, NoDup (map fst r) -> (forall t, In t r -> (fst t < length dr)%nat) -> (forall j, In j (map fst r) -> dv dr j = 0) ->
    exists dr', each (fun t dr => dwr dr (fst t) (snd t)) r dr = Some dr' /\ length dr' = length dr /\ forall j, dv dr' j = dv dr j + rv r j).
  { clear. induction r as [|t r IH]; intros dr ND HL HZ; cbn [each rv map] in *.
    - exists dr. split; [reflexivity|]. split; [reflexivity|]. intros; lia.
    - inversion ND as [|? ? Hn ND']; subst. destruct (dwr_ok dr (fst t) (snd t)) as (d1 & -> & L1 & V1); [apply HL; left; reflexivity|]. cbn [obind].
      destruct (IH d1 ND') as (d2 & E2 & L2 & V2).
      + intros u Hu. rewrite L1. apply HL. right. assumption.
      + intros j Hj. rewrite V1. destruct (Nat.eqb_spec j (fst t)) as [->|]; [contradiction|]. apply HZ. right. assumption.
      + exists d2. split; [exact E2|]. split; [lia|]. intros j. rewrite V2, V1, Nat.eqb_sym. destruct (Nat.eqb_spec (fst t) j) as [<-|]; [|lia]. rewrite (HZ (fst t)) by (left; reflexivity). lia. }
  destruct (G r (repeat 0 n) ND) as (dr & E & L & V).
  - intros t Ht. rewrite repeat_length. auto.
  - intros j _. apply dv_repeat.
  - exists dr. split; [exact E|]. rewrite repeat_length in L. split; [assumption|]. intros j. rewrite V, dv_repeat. lia.
Qed.

(** ** Rows *)
Lemma rv_app a b j : rv (a ++ b) j = rv a j + rv b j.
Proof. induction a as [|t a IH]; cbn [app rv]; [lia|]. rewrite IH. lia. Qed.
Lemma rv_scale m r j : rv (scale_kept m r) j = m * rv r j.
Proof. induction r as [|t r IH]; cbn [scale_kept map rv fst snd]; [lia|]. unfold scale_kept in IH. rewrite IH. destruct (_ =? _)%nat; lia. Qed.
Lemma fst_scale m r : map fst (scale_kept m r) = map fst r.
Proof. unfold scale_kept. rewrite map_map. reflexivity. Qed.
Lemma rv_head c x r : NoDup (map fst ((c, x) :: r)) -> rv ((c, x) :: r) c = x.
Proof. intros ND. exact (rv_in _ (c, x) ND (or_introl eq_refl)). Qed.
Lemma zpivot_lead n c r : zpivot n c r -> rv r c <> 0.
Proof. intros (ND & _ & x & r' & -> & Hx & _). rewrite rv_head; assumption. Qed.
Lemma zpivot_below n c r j : zpivot n c r -> (j < c)%nat -> rv r j = 0.
Proof.
  intros (ND & _ & x & r' & -> & _ & H) Hj. apply rv_notin. cbn. intros [E|Hin]; [lia|].
  apply in_map_iff in Hin. destruct Hin as (t & <- & Ht). specialize (H t Ht). lia.
Qed.
Lemma zpivot_lt n c r : zpivot n c r -> (c < n)%nat.
Proof. intros (_ & HL & x & r' & -> & _). apply (HL (c, x)). left. reflexivity. Qed.
Lemma zcanon_nodup r : zcanon r -> NoDup (map fst r).
Proof. intros (H & _). apply sorted_nodup. assumption. Qed.
Lemma zcanon_pivot n c x r : zcanon ((c, x) :: r) -> (forall t, In t ((c, x) :: r) -> (fst t < n)%nat) -> zpivot n c ((c, x) :: r).
Proof.
  intros HC HL. split; [apply zcanon_nodup; assumption|]. split; [assumption|]. exists x, r. split; [reflexivity|]. destruct HC as (HS & Hnz). split; [apply (Hnz (c, x)); left; reflexivity|].
  intros t Ht. cbn [map fst] in HS. apply StronglySorted_inv in HS. destruct HS as (_ & HF). rewrite Forall_forall in HF. apply HF. apply in_map. assumption.
Qed.
Lemma zcanon_head r c : zcanon r -> (forall j, (j < c)%nat -> rv r j = 0) -> rv r c <> 0 -> exists x r', r = (c, x) :: r'.
Proof.
  intros HC Hz H1. destruct r as [|(c0, x) r]; [cbn in H1; lia|].
  assert (Ht : rv ((c0, x) :: r) c0 = x) by (apply rv_head, zcanon_nodup, HC).
  assert (Hx : x <> 0) by (apply (proj2 HC (c0, x)); left; reflexivity).
  destruct (Nat.lt_trichotomy c0 c) as [Hl|[->|Hl]]; [rewrite Hz in Ht by assumption; congruence|eauto|].
  exfalso. apply H1. apply rv_notin. intros Hin. destruct HC as (HS & _). cbn [map fst] in HS, Hin. apply StronglySorted_inv in HS. destruct HS as (_ & HF). rewrite Forall_forall in HF.
  destruct Hin as [E|Hin]; [lia|]. apply HF in Hin. lia.
Qed.
Lemma zcanon_eq a b : zcanon a -> zcanon b -> (forall j, rv a j = rv b j) -> a = b.
Proof.
  revert b. induction a as [|(c, x) a IH]; intros b CA CB H.
  - destruct b as [|(c, x) b]; [reflexivity|]. exfalso. specialize (H c). rewrite (rv_head c x _ (zcanon_nodup _ CB)) in H. cbn in H. apply (proj2 CB (c, x)); [left; reflexivity|auto].
  - destruct (zcanon_head b c CB) as (y & b' & ->).
    + intros j Hj. rewrite <- H. apply rv_notin. intros Hin. destruct CA as (HS & _). cbn [map fst] in HS, Hin. apply StronglySorted_inv in HS. destruct HS as (_ & HF). rewrite Forall_forall in HF.
      destruct Hin as [E|Hin]; [lia|]. apply HF in Hin. lia.
    + rewrite <- H. rewrite (rv_head c x _ (zcanon_nodup _ CA)). apply (proj2 CA (c, x)). left. reflexivity.
    + assert (x = y). { pose proof (H c) as Hc. rewrite (rv_head c x _ (zcanon_nodup _ CA)) in Hc. rewrite (rv_head c y _ (zcanon_nodup _ CB)) in Hc. exact Hc. }
      assert (T : forall z l, zcanon ((c, z) :: l) -> zcanon l). { intros z l (HS & Hn). cbn [map] in HS. apply StronglySorted_inv in HS. split; [apply HS|]. intros t Ht. apply Hn. right. assumption. }
      f_equal; [congruence|]. apply IH; [eapply T; exact CA|eapply T; exact CB|]. intros j. specialize (H j). cbn [rv fst snd] in H. subst y. lia.
Qed.

(** ** Content *)
Lemma strip_ok r : (exists c x r', r = (c, x) :: r' /\ x <> 0) ->
  exists k r', strip r = Some r' /\ k <> 0 /\ r = scale_kept k r' /\ zprim r'.
Proof.
  intros (c & x & r0 & E & Hx). unfold strip.
  destruct (C45_content [map snd r]) as (res & -> & HF).
  { intros l [<-|[]]. rewrite E. cbn [map snd]. eauto. }
  cbn [obind]. destruct res as [|cs [|cs2 tl]]; [inversion HF| |inversion HF as [|? ? ? ? _ HT]; inversion HT].
  assert (HD : exists k, k <> 0 /\ map snd r = map (Z.mul k) cs) by (inversion HF as [|? ? ? ? HD]; apply HD). destruct HD as (k & Hk & Ek).
  assert (HD : exists d l, cs = d :: l /\ 0 < d) by (inversion HF as [|? ? ? ? HD]; apply HD). destruct HD as (d & l & Ed & Hd).
  assert (Hg : forall q, (forall y, In y cs -> (q | y)) -> q = 1 \/ q = -1) by (inversion HF as [|? ? ? ? HD]; apply HD). clear HF. subst r cs.
  cbn [map snd fst] in *. injection Ek as Ex Er0. exists k, ((c, d) :: combine (map fst r0) l). split; [reflexivity|]. split; [assumption|].
  assert (Hlen : length l = length r0) by (apply (f_equal (@length Z)) in Er0; rewrite !map_length in Er0; congruence).
  split.
  - unfold scale_kept. cbn [map fst snd]. rewrite Ex. f_equal. clear - Hlen Er0. revert l Hlen Er0. induction r0 as [|(c0, y) r0 IH]; intros [|z l] Hlen Er0; cbn in *; try lia; [reflexivity|].
    injection Er0 as E1 E2. rewrite E1. f_equal. apply IH; [lia|assumption].
  - split; [|exists c, d, (combine (map fst r0) l); auto]. intros q Hq. apply Hg. intros y [<-|Hy]; [apply (Hq (c, d)); left; reflexivity|].
    assert (Hs : map snd (combine (map fst r0) l) = l). { clear - Hlen. revert l Hlen. induction r0 as [|t r0 IH]; intros [|z l] H; cbn in *; try lia; [reflexivity|]. f_equal. apply IH. lia. }
    rewrite <- Hs in Hy. apply in_map_iff in Hy. destruct Hy as (t & <- & Ht). apply Hq. right. assumption.
Qed.
Lemma zcanon_unscale k r : zcanon (scale_kept k r) -> zcanon r.
Proof.
  intros (HS & Hn). rewrite fst_scale in HS. split; [assumption|]. intros t Ht E. apply (Hn (fst t, k * snd t)); [|cbn; rewrite E; lia].
  unfold scale_kept. apply (in_map (fun t => (fst t, k * snd t))). assumption.
Qed.
Lemma zcanon_scale k r : k <> 0 -> zcanon r -> zcanon (scale_kept k r).
Proof.
  intros Hk (HS & Hn). split; [rewrite fst_scale; assumption|]. intros t Ht. unfold scale_kept in Ht. apply in_map_iff in Ht. destruct Ht as (u & <- & Hu). cbn [snd]. specialize (Hn u Hu). nia.
Qed.
Lemma in_scale_fst k r t : In t (scale_kept k r) -> exists u, In u r /\ fst t = fst u.
Proof. intros Ht. unfold scale_kept in Ht. apply in_map_iff in Ht. destruct Ht as (u & <- & Hu). exists u. auto. Qed.
Lemma in_scale_to k r u : In u r -> exists t, In t (scale_kept k r) /\ fst t = fst u.
Proof. intros Hu. exists (fst u, k * snd u). split; [|reflexivity]. unfold scale_kept. apply (in_map (fun t => (fst t, k * snd t))). assumption. Qed.
