(** Proofs about the probabilistic linear algebra. *)
From Coq Require Import ZArith Arith List Bool Lia Znumtheory Setoid Morphisms Sorted.
From Verif Require Import ModInvModel ModInvProofs LinSpec LaSpec LaModel LaProofs LaRowProofs LaSysProofs ProbSpec ProbModel.
Import ListNotations.
Open Scope Z_scope.

(** ** Blocks of rows *)
Lemma to_i32_small x : 0 <= x < 2 ^ 31 -> to_i32 x = x.
Proof. intros H. unfold to_i32. rewrite Z.mod_small by lia. destruct (Z.ltb_spec x (2 ^ 31)); lia. Qed.
Lemma rpb_ok n : 0 <= n -> 1 <= nblocks n /\ 0 <= rpb n /\ n <= nblocks n * rpb n /\ nblocks n * rpb n < n + nblocks n /\ (nblocks n - 1) * rpb n <= n /\ nblocks n <= n + 1.
Proof.
  intros Hn. set (s := Z.sqrt (n / 3)). assert (H3 : 0 <= n / 3) by (apply Z.div_pos; lia). destruct (Z.sqrt_spec (n / 3) H3) as (Hs & _). fold s in Hs.
  assert (Hs0 : 0 <= s) by apply Z.sqrt_nonneg. assert (Hd : 3 * (n / 3) <= n) by (apply Z.mul_div_le; lia).
  unfold rpb, nblocks. fold s. set (nb := s + 1). assert (Hnb : 1 <= nb) by (unfold nb; lia).
  pose proof (Z.div_mod n nb ltac:(lia)) as Hdm. pose proof (Z.mod_pos_bound n nb ltac:(lia)) as Hmb. assert (Hq : 0 <= n / nb) by (apply Z.div_pos; lia).
  set (q := n / nb) in *. set (r := n mod nb) in *. replace (nb - 1) with s by (unfold nb; lia).
  assert (Hsn : s * s <= n) by nia.
  split; [assumption|]. destruct (Z.eqb_spec r 0) as [E|E]; (split; [lia|]); (split; [nia|]); (split; [nia|]); split; try (unfold nb in *; nia).
Qed.
Section Blocks.
Variables (n : Z) (Hn : 0 <= n < 2 ^ 31) (i : Z) (Hi : 0 <= i < nblocks n).
Lemma blk_start_ok : blk_start n i = i * rpb n.
Proof. destruct (rpb_ok n ltac:(lia)) as (H1 & H2 & H3 & H4 & H5 & H6). unfold blk_start. rewrite Z.mod_small; [reflexivity|]. nia. Qed.
Lemma blk_end_ok : blk_end n i = Z.min ((i + 1) * rpb n) n.
Proof.
  destruct (rpb_ok n ltac:(lia)) as (H1 & H2 & H3 & H4 & H5 & H6). assert (Hb : (i + 1) * rpb n <= nblocks n * rpb n) by nia.
  unfold blk_end. rewrite (Z.mod_small ((i + 1) * rpb n)) by nia.
  destruct (Z.ltb_spec ((i + 1) * rpb n) n); rewrite to_i32_small by nia; lia.
Qed.
Lemma blk_len_ok : blk_len n i = Z.min ((i + 1) * rpb n) n - i * rpb n /\ 0 <= blk_len n i <= rpb n /\ i * rpb n + blk_len n i <= n.
Proof.
  destruct (rpb_ok n ltac:(lia)) as (H1 & H2 & H3 & H4 & H5 & H6). assert (Hb : i * rpb n <= n) by nia.
  unfold blk_len. rewrite blk_start_ok, blk_end_ok. rewrite (Z.mod_small (Z.min _ _)) by nia. rewrite to_i32_small by nia. nia.
Qed.
Lemma blk_len_u : blk_len n i mod 2 ^ 32 = blk_len n i.
Proof. destruct blk_len_ok as (H1 & H2 & H3). destruct (rpb_ok n ltac:(lia)) as (H4 & H5 & _). apply Z.mod_small. nia. Qed.
Lemma blk_cnt : blk_end n i mod 2 ^ 32 - blk_start n i = blk_len n i.
Proof.
  destruct blk_len_ok as (H1 & H2 & H3). rewrite blk_start_ok, blk_end_ok, H1. destruct (rpb_ok n ltac:(lia)) as (H4 & H5 & _). rewrite Z.mod_small; [lia|]. nia.
Qed.
End Blocks.

(** ** Linear algebra *)
Definition inl (vs : list vec) : vec -> Prop := fun u => In u vs.
Definition por (A B : vec -> Prop) : vec -> Prop := fun u => A u \/ B u.
Lemma span_split p (A : vec -> Prop) (g : vec) v : span p (por A (eq g)) v -> exists a, span p A (fun j => v j - a * g j).
Proof.
  apply (span_ind_lin p (por A (eq g)) (fun v => exists a, span p A (fun j => v j - a * g j))).
  - intros u [Hu|<-].
    + exists 0. eapply span_eq; [apply span_in; exact Hu|]. intros j. exists 0. ring.
    + exists 1. apply span_veq0. intros j. unfold vzero. exists 0. ring.
  - exists 0. apply span_veq0. intros j. unfold vzero. exists 0. ring.
  - intros x u w (a & Ha) (b & Hb). exists (x * a + b). eapply span_eq; [apply (span_lin p A x _ _ Ha Hb)|]. intros j. exists 0. ring.
  - intros u w (a & Ha) E. exists a. eapply span_eq; [exact Ha|]. intros j. rewrite (E j). reflexivity.
Qed.
Lemma inv_exists p a : prime p -> ~ eqp p a 0 -> exists b, eqp p (b * a) 1.
Proof.
  intros HP Ha. assert (R : rel_prime a p).
  { apply rel_prime_sym, prime_rel_prime; [assumption|]. intros D. apply Ha. unfold eqp. rewrite Z.sub_0_r. assumption. }
  apply rel_prime_bezout in R. destruct R as [u v E]. exists u. exists (- v). lia.
Qed.
Lemma eqp_dec p a b : {eqp p a b} + {~ eqp p a b}.
Proof. apply Zdivide_dec. Qed.
Lemma exch1 p (A : vec -> Prop) v : prime p -> ~ span p A v -> forall gs, span p (por A (inl gs)) v ->
  exists l1 g l2, gs = l1 ++ g :: l2 /\ span p (por (por A (eq v)) (inl (l1 ++ l2))) g.
Proof.
  intros HP HA. induction gs as [|g gs IH]; intros Hv.
  - exfalso. apply HA. eapply span_mono; [|exact Hv]. intros u [Hu|[]]. apply span_in. assumption.
  - assert (Hv' : span p (por (por A (inl gs)) (eq g)) v).
    { eapply span_mono; [|exact Hv]. intros u [Hu|[Hu|Hu]]; apply span_in; [left; left; assumption|right; assumption|left; right; assumption]. }
    destruct (span_split p _ g v Hv') as (a & Ha). destruct (eqp_dec p a 0) as [E|E].
    + destruct IH as (l1 & g' & l2 & -> & Hg).
      * eapply span_eq; [exact Ha|]. intros j. rewrite E. exists 0. ring.
      * exists (g :: l1), g', l2. split; [reflexivity|]. eapply span_mono; [|exact Hg]. intros u [Hu|Hu]; apply span_in; [left; assumption|right; right; assumption].
    + destruct (inv_exists p a HP E) as (b & Hb). exists [], g, gs. split; [reflexivity|]. cbn [app].
      assert (H1 : span p (por (por A (eq v)) (inl gs)) (fun j => v j - a * g j)).
      { eapply span_mono; [|exact Ha]. intros u [Hu|Hu]; apply span_in; [left; left; assumption|right; assumption]. }
      assert (H2 : span p (por (por A (eq v)) (inl gs)) v) by (apply span_in; left; right; reflexivity).
      eapply span_eq; [apply (span_scale p _ b), (span_sub p _ _ _ H2 H1)|]. intros j. cbv beta.
      replace (b * (v j - (v j - a * g j))) with (b * a * g j) by ring. rewrite Hb. exists 0. ring.
Qed.
Fixpoint indep (p : Z) (vs : list vec) : Prop := match vs with [] => True | v :: vs' => ~ span p (inl vs') v /\ indep p vs' end.
Lemma exchange p gs : prime p -> forall vs, indep p vs -> (forall v, In v vs -> span p (inl gs) v) ->
  exists gs', (length gs' + length vs = length gs)%nat /\ forall g, In g gs -> span p (por (inl vs) (inl gs')) g.
Proof.
  intros HP. induction vs as [|v vs IH]; intros Hi Hs.
  - exists gs. split; [cbn; lia|]. intros g Hg. apply span_in. right. assumption.
  - destruct Hi as (Hv & Hi). destruct IH as (gs' & L & HG); [assumption|intros w Hw; apply Hs; right; assumption|].
    assert (Hvs : span p (por (inl vs) (inl gs')) v). { eapply span_mono; [|apply Hs; left; reflexivity]. exact HG. }
    destruct (exch1 p (inl vs) v HP Hv gs' Hvs) as (l1 & g & l2 & -> & Hg). exists (l1 ++ l2). split; [rewrite app_length in *; cbn [length] in *; lia|].
    assert (Hg' : span p (por (inl (v :: vs)) (inl (l1 ++ l2))) g).
    { eapply span_mono; [|exact Hg]. intros u [[Hu|Hu]|Hu]; apply span_in; [left; right; assumption|left; left; assumption|right; assumption]. }
    intros w Hw. eapply span_mono; [|apply HG; exact Hw]. intros u [Hu|Hu]; [apply span_in; left; right; assumption|].
    apply in_app_or in Hu. destruct Hu as [Hu|[<-|Hu]]; [| exact Hg' |]; apply span_in; right; apply in_or_app; auto.
Qed.
(** as many independent combinations as rows: nothing is left out *)
Lemma full_block p (A : vec -> Prop) gs vs : prime p -> indep p vs -> (forall v, In v vs -> span p (inl gs) v) -> (forall v, In v vs -> span p A v) ->
  length vs = length gs -> forall g, In g gs -> span p A g.
Proof.
  intros HP Hi Hs HA L g Hg. destruct (exchange p gs HP vs Hi Hs) as (gs' & L' & HG). assert (gs' = []) as -> by (destruct gs'; [reflexivity|cbn in L'; lia]).
  eapply span_mono; [|apply HG; exact Hg]. intros u [Hu|[]]. auto.
Qed.

(** a vector of the span of an echelon family whose first nonzero entry is in column c: c is a pivot column *)
Lemma lead_in_span p n P v c : pivots_ok p n P -> span p (pset_of P) v -> (forall j, (j < c)%nat -> eqp p (v j) 0) -> ~ eqp p (v c) 0 -> P c <> None.
Proof.
  intros HP Hv Hz Hc E. apply Hc. apply (span_restrict p n P v c HP) in Hv; [|intros j Hj _; auto].
  apply (span_at p _ _ c Hv). intros u (c' & r' & E' & ->). unfold drop_old in E'. destruct (Nat.ltb_spec c' c); [discriminate|].
  destruct (Nat.eq_dec c' c) as [->|]; [congruence|]. rewrite (pivot_below p n c' r') by (eauto; lia). reflexivity.
Qed.

(** ** The drawn row *)
Definition nonneg_pp (p : Z) (dr : list Z) : Prop := forall j, 0 <= dv dr j < p * p.
Lemma csub_ok p m t dr : 2 <= p < 2 ^ 31 -> 0 <= m < p -> 0 <= snd t < p -> (fst t < length dr)%nat -> nonneg_pp p dr ->
  exists dr', csub (p * p) m t dr = Some dr' /\ length dr' = length dr /\ nonneg_pp p dr' /\
  forall j, eqp p (dv dr' j) (dv dr j - m * (if (fst t =? j)%nat then snd t else 0)).
Proof.
  intros Hp Hm Hc Ht Hb. assert (Hpp : 0 < p * p < 2 ^ 62) by nia. pose proof (Hb (fst t)) as Hd. unfold csub, add_at. rewrite drd_dv by assumption. cbn [obind]. unfold kadd.
  assert (Hmc : 0 <= m * snd t < p * p) by nia. rewrite chk_some by lia. cbn [obind]. rewrite chk_some by lia. cbn [obind].
  destruct (dwr_ok dr (fst t) (dv dr (fst t) - m * snd t) Ht) as (d1 & -> & L1 & V1). cbn [obind]. unfold fix_at. rewrite drd_dv by lia. cbn [obind]. unfold kfix.
  rewrite V1, Nat.eqb_refl. pose proof (land_sign 64 (dv dr (fst t) - m * snd t) (p * p)) as HLS. change (64 - 1) with 63 in HLS. rewrite HLS by lia. clear HLS.
  set (x := dv dr (fst t) - m * snd t) in *. set (y := x + (if x <? 0 then p * p else 0)).
  assert (Hy : 0 <= y < p * p) by (unfold y; destruct (Z.ltb_spec x 0); lia). rewrite chk_some by lia. cbn [obind].
  destruct (dwr_ok d1 (fst t) y) as (d2 & -> & L2 & V2); [lia|]. exists d2. split; [reflexivity|]. split; [lia|].
  assert (V : forall j, dv d2 j = if (j =? fst t)%nat then y else dv dr j). { intros j. rewrite V2, V1. destruct (j =? fst t)%nat; reflexivity. }
  split; [intros j; rewrite V; destruct (j =? fst t)%nat; auto|]. intros j. rewrite V. rewrite (Nat.eqb_sym (fst t) j).
  destruct (Nat.eqb_spec j (fst t)) as [->|].
  - unfold y. destruct (Z.ltb_spec x 0); unfold x; [exists p|exists 0]; ring.
  - exists 0. ring.
Qed.
Lemma csub_each p m : 2 <= p < 2 ^ 31 -> 0 <= m < p -> forall r dr, cfs_ok p r -> (forall t, In t r -> (fst t < length dr)%nat) -> nonneg_pp p dr ->
  exists dr', each (csub (p * p) m) r dr = Some dr' /\ length dr' = length dr /\ nonneg_pp p dr' /\ forall j, eqp p (dv dr' j) (dv dr j - m * rv r j).
Proof.
  intros Hp Hm. induction r as [|t r IH]; intros dr HC HL Hb; cbn [each].
  - exists dr. split; [reflexivity|]. split; [reflexivity|]. split; [assumption|]. intros j. cbn [rv]. exists 0. ring.
  - destruct (csub_ok p m t dr Hp Hm (HC t (or_introl eq_refl)) (HL t (or_introl eq_refl)) Hb) as (d1 & -> & L1 & B1 & V1). cbn [obind].
    destruct (IH d1) as (d2 & -> & L2 & B2 & V2); [intros u Hu; apply HC; right; assumption|intros u Hu; rewrite L1; apply HL; right; assumption|assumption|].
    exists d2. split; [reflexivity|]. split; [lia|]. split; [assumption|]. intros j. rewrite V2, V1. cbn [rv]. exists 0. ring.
Qed.
Lemma csub_blocks_ok p m : 2 <= p < 2 ^ 31 -> 0 <= m < p -> forall n r dr, length r = (4 * n)%nat -> cfs_ok p r -> (forall t, In t r -> (fst t < length dr)%nat) -> nonneg_pp p dr ->
  exists dr', csub_blocks (p * p) m r dr = Some dr' /\ length dr' = length dr /\ nonneg_pp p dr' /\ forall j, eqp p (dv dr' j) (dv dr j - m * rv r j).
Proof.
  intros Hp Hm. induction n as [|n IH]; intros r dr Hlen HC HL Hb.
  - destruct r; [|cbn in Hlen; lia]. exists dr. split; [reflexivity|]. split; [reflexivity|]. split; [assumption|]. intros j. cbn [rv]. exists 0. ring.
  - destruct r as [|a [|b [|c [|d r]]]]; cbn [length] in Hlen; try lia. cbn [csub_blocks].
    destruct (csub_each p m Hp Hm [a; b; c; d] dr) as (d1 & -> & L1 & B1 & V1); [intros u Hu; apply HC; cbn in *; tauto|intros u Hu; apply HL; cbn in *; tauto|assumption|].
    cbn [obind]. destruct (IH r d1) as (d2 & -> & L2 & B2 & V2); [lia|intros u Hu; apply HC; cbn; tauto|intros u Hu; rewrite L1; apply HL; cbn; tauto|assumption|].
    exists d2. split; [reflexivity|]. split; [lia|]. split; [assumption|]. intros j. rewrite V2, V1. cbn [rv]. exists 0. ring.
Qed.
Lemma rv_app a b j : rv (a ++ b) j = rv a j + rv b j.
Proof. induction a as [|t a IH]; cbn [app rv]; [ring|]. rewrite IH. ring. Qed.
Lemma csub_row_ok p m r dr : 2 <= p < 2 ^ 31 -> 0 <= m < p -> cfs_ok p r -> (forall t, In t r -> (fst t < length dr)%nat) -> nonneg_pp p dr ->
  exists dr', csub_row (p * p) m r dr = Some dr' /\ length dr' = length dr /\ nonneg_pp p dr' /\ forall j, eqp p (dv dr' j) (dv dr j - m * rv r j).
Proof.
  intros Hp Hm HC HL Hb. unfold csub_row. set (os := preloop r).
  assert (HI1 : forall t, In t (firstn os r) -> In t r) by (intros t Ht; rewrite <- (firstn_skipn os r); apply in_or_app; auto).
  assert (HI2 : forall t, In t (skipn os r) -> In t r) by (intros t Ht; rewrite <- (firstn_skipn os r); apply in_or_app; auto).
  destruct (csub_each p m Hp Hm (firstn os r) dr) as (d1 & -> & L1 & B1 & V1); [intros u Hu; apply HC; auto|intros u Hu; apply HL; auto|assumption|]. cbn [obind].
  destruct (skipn_multiple UNROLL r) as (n & En); [unfold UNROLL; lia|].
  destruct (csub_blocks_ok p m Hp Hm n (skipn os r) d1) as (d2 & -> & L2 & B2 & V2); [exact En|intros u Hu; apply HC; auto|intros u Hu; rewrite L1; apply HL; auto|assumption|].
  exists d2. split; [reflexivity|]. split; [lia|]. split; [assumption|]. intros j. rewrite V2, V1.
  replace (rv r j) with (rv (firstn os r) j + rv (skipn os r) j) by (rewrite <- rv_app, firstn_skipn; reflexivity). exists 0. ring.
Qed.
Lemma skipn_nth {A} (l : list A) : forall m x, nth_error l m = Some x -> skipn m l = x :: skipn (S m) l.
Proof. induction l as [|y l IH]; intros [|m] x E; cbn in E; try discriminate; [injection E as ->; reflexivity|]. cbn [skipn]. rewrite (IH m x E). reflexivity. Qed.
Lemma csub_rows_ok p ncols (tr : list srow) : 2 <= p < 2 ^ 31 -> (forall r, In r tr -> input_row p ncols r) -> forall cnt m mul dr, (m + cnt <= length tr)%nat ->
  multipliers p cnt mul -> length dr = ncols -> nonneg_pp p dr ->
  exists dr', csub_rows (p * p) tr cnt m mul dr = Some dr' /\ length dr' = ncols /\ nonneg_pp p dr' /\
  forall j, eqp p (dv dr' j) (dv dr j - combine_rows (firstn cnt (skipn m tr)) mul j).
Proof.
  intros Hp HT. induction cnt as [|cnt IH]; intros m mul dr Hm (HL & HM) Hlen Hb; cbn [csub_rows].
  - exists dr. split; [reflexivity|]. split; [assumption|]. split; [assumption|]. intros j. cbn [firstn combine_rows]. exists 0. ring.
  - destruct (nth_error tr m) as [r|] eqn:Er; [|apply nth_error_None in Er; lia]. cbn [obind]. destruct mul as [|x mul]; [discriminate|].
    destruct (HT r (nth_error_In _ _ Er)) as (_ & HC & HCl & _).
    destruct (csub_row_ok p x r dr Hp) as (d1 & -> & L1 & B1 & V1); [apply HM; left; reflexivity|assumption|rewrite Hlen; assumption|assumption|]. cbn [obind].
    destruct (IH (S m) mul d1) as (d2 & -> & L2 & B2 & V2); [lia|split; [cbn in HL; lia|intros y Hy; apply HM; right; assumption]|lia|assumption|].
    exists d2. split; [reflexivity|]. split; [assumption|]. split; [assumption|]. intros j. rewrite V2, V1.
    assert (E : skipn m tr = r :: skipn (S m) tr).
    { apply skipn_nth. assumption. }
    rewrite E. cbn [firstn combine_rows]. exists 0. ring.
Qed.

(** ** One block *)
Definition block (tr : list srow) (i : Z) : list srow :=
  let n := Z.of_nat (length tr) in firstn (Z.to_nat (blk_len n i)) (skipn (Z.to_nat (blk_start n i)) tr).
Definition draw_range (k : kern) (p : Z) : Z := match k with K8 | K16 => p | _ => 2 ^ 15 end.
Lemma block_length tr i : Z.of_nat (length tr) < 2 ^ 31 -> 0 <= i < nblocks (Z.of_nat (length tr)) -> length (block tr i) = Z.to_nat (blk_len (Z.of_nat (length tr)) i).
Proof.
  intros Hn Hi. unfold block. destruct (blk_len_ok (Z.of_nat (length tr)) ltac:(lia) i Hi) as (_ & H2 & H3). rewrite blk_start_ok by lia.
  destruct (rpb_ok (Z.of_nat (length tr)) ltac:(lia)) as (H4 & H5 & _). rewrite firstn_length, skipn_length. nia.
Qed.
Lemma block_in tr i r : In r (block tr i) -> In r tr.
Proof.
  unfold block. intros H. rewrite <- (firstn_skipn (Z.to_nat (blk_start (Z.of_nat (length tr)) i)) tr). apply in_or_app. right.
  rewrite <- (firstn_skipn (Z.to_nat (blk_len (Z.of_nat (length tr)) i)) (skipn _ tr)). apply in_or_app. left. assumption.
Qed.
Lemma kdraw_range k p x : 2 <= p -> 0 <= x -> 0 <= kdraw k p x < draw_range k p.
Proof.
  intros Hp Hx. destruct k; cbn [kdraw draw_range].
  - rewrite Z.rem_mod_nonneg by lia. apply Z.mod_pos_bound. lia.
  - rewrite Z.rem_mod_nonneg by lia. apply Z.mod_pos_bound. lia.
  - change (2 ^ 15 - 1) with (Z.ones 15). rewrite Z.land_ones by lia. apply Z.mod_pos_bound. lia.
  - change (2 ^ 15 - 1) with (Z.ones 15). rewrite Z.land_ones by lia. apply Z.mod_pos_bound. lia.
Qed.
Lemma draw_ok k p n i rand : 2 <= p -> 0 <= n < 2 ^ 31 -> 0 <= i < nblocks n -> (forall j, 0 <= rand j) ->
  exists mul, draw k p n i rand = Some mul /\ multipliers (draw_range k p) (Z.to_nat (blk_len n i)) mul.
Proof.
  intros Hp Hn Hi Hr. unfold draw. rewrite blk_len_u by assumption. destruct (blk_len_ok n Hn i Hi) as (_ & H2 & _).
  rewrite (proj2 (Z.leb_le _ _)) by lia. eexists. split; [reflexivity|]. split; [rewrite map_length, seq_length; reflexivity|].
  intros m Hm. apply in_map_iff in Hm. destruct Hm as (j & <- & _). apply kdraw_range; auto.
Qed.
Lemma combine_in_span p rows : forall mul, span p (inl (map rv rows)) (combine_rows rows mul).
Proof.
  induction rows as [|r rows IH]; intros mul; [apply span_veq0; intros j; destruct mul; reflexivity|].
  destruct mul as [|m mul]; [apply span_veq0; intros j; reflexivity|].
  change (combine_rows (r :: rows) (m :: mul)) with (fun j => m * rv r j + combine_rows rows mul j). apply span_lin.
  - apply span_in. left. reflexivity.
  - eapply span_mono; [|apply IH]. intros u Hu. apply span_in. right. assumption.
Qed.

Lemma nth_error_rep {A} (x : A) n : forall t y, nth_error (repeat x n) t = Some y -> y = x /\ (t < n)%nat.
Proof. induction n as [|n IH]; intros [|t] y E; cbn in E; try discriminate; [injection E as <-; split; [reflexivity|lia]|]. destruct (IH t y E). split; [assumption|lia]. Qed.

Section Run.
Variables (k : kern) (p : Z) (ncl ncols : nat) (rr : nat -> option srow) (tr : list srow).
Hypothesis HP : prime p.
Hypothesis HK : kern_ok k p.
Hypothesis HR : kroom k p (S ncols).
Hypothesis HM : matrix_ok p ncl ncols rr tr.
Hypothesis HN : Z.of_nat (length tr) < 2 ^ 31.
Hypothesis HD : draw_range k p <= p.
Notation nrl := (Z.of_nat (length tr)).

Lemma p31 : 2 <= p < 2 ^ 31.
Proof. destruct HK as (H1 & H2). destruct k; lia. Qed.
Lemma combined_ok i mul : 0 <= i < nblocks nrl -> multipliers (draw_range k p) (Z.to_nat (blk_len nrl i)) mul ->
  exists dr, combined p ncols tr i mul = Some dr /\ length dr = ncols /\ nonneg_pp p dr /\ forall j, eqp p (dv dr j) (- combine_rows (block tr i) mul j).
Proof.
  intros Hi (Lm & Bm). pose proof p31 as Hp. unfold combined. rewrite chk_some by nia. cbn [obind]. rewrite blk_cnt by lia.
  destruct (blk_len_ok nrl ltac:(lia) i Hi) as (_ & H2 & H3). destruct (rpb_ok nrl ltac:(lia)) as (H4 & H5 & _).
  destruct (csub_rows_ok p ncols tr Hp) with (cnt := Z.to_nat (blk_len nrl i)) (m := Z.to_nat (blk_start nrl i)) (mul := mul) (dr := repeat 0 ncols) as (dr & E & L & B & V).
  - apply HM.
  - rewrite blk_start_ok by lia. nia.
  - split; [assumption|]. intros m Hm. specialize (Bm m Hm). lia.
  - apply repeat_length.
  - intros j. rewrite dv_repeat. nia.
  - exists dr. split; [assumption|]. split; [assumption|]. split; [assumption|]. intros j. rewrite V, dv_repeat. unfold block. exists 0. ring.
Qed.

Definition one_row : nat := (budget ncols + 2)%nat.
(** what is known of block i, and the number of steps it may still take *)
Definition ghost (P : nat -> option srow) (i : Z) (b : Z) (vs : list vec) : Prop :=
  Z.of_nat (length vs) = b /\ indep p vs /\ (forall v, In v vs -> span p (inl (map rv (block tr i))) v /\ span p (pset_of P) v).
Definition binv (P : nat -> option srow) (i : Z) (mu : nat) (s : bstate) : Prop :=
  match s with
  | Bidle b => exists vs, ghost P i b vs /\ 0 <= b <= blk_len nrl i /\ mu = (Z.to_nat (blk_len nrl i - b) * one_row + 1)%nat
  | Bwork b mul rs => exists vs v0 m, ghost P i b vs /\ 0 <= b < blk_len nrl i /\ multipliers (draw_range k p) (Z.to_nat (blk_len nrl i)) mul /\
      rinv k p ncl ncols P v0 m rs /\ (forall j, eqp p (v0 j) (- combine_rows (block tr i) mul j)) /\
      match rs with Todo _ => False | DonePiv _ => ~ span p (inl vs) v0 | _ => True end /\ (m < budget ncols)%nat /\
      mu = (Z.to_nat (blk_len nrl i - b - 1) * one_row + 2 + (if finished rs then 0 else m))%nat
  | Bend None => all_in p (pset_of P) (block tr i)
  | Bend (Some mul) => multipliers (draw_range k p) (Z.to_nat (blk_len nrl i)) mul /\ span p (pset_of P) (combine_rows (block tr i) mul)
  end.
Lemma ghost_mono P Q i b vs : le_pivs P Q -> ghost P i b vs -> ghost Q i b vs.
Proof.
  intros HL (H1 & H2 & H3). split; [assumption|]. split; [assumption|]. intros v Hv. destruct (H3 v Hv) as (X & Y). split; [assumption|].
  eapply pset_of_mono; eassumption.
Qed.
Lemma binv_mono P Q i mu s : le_pivs P Q -> binv P i mu s -> binv Q i mu s.
Proof.
  intros HL. destruct s as [b|b mul rs|[mul|]]; cbn [binv].
  - intros (vs & H1 & H2). exists vs. split; [eapply ghost_mono; eassumption|assumption].
  - intros (vs & v0 & m & H1 & H2 & H3 & H4 & H5). exists vs, v0, m. split; [eapply ghost_mono; eassumption|]. split; [assumption|]. split; [assumption|].
    split; [eapply rinv_mono; eassumption|assumption].
  - intros (H1 & H2). split; [assumption|]. eapply pset_of_mono; eassumption.
  - intros H r Hr. eapply pset_of_mono; [eassumption|]. apply H. assumption.
Qed.
Lemma binv_pos P i mu s : binv P i mu s -> bfinished s = false -> (0 < mu)%nat.
Proof. destruct s as [b|b mul rs|l]; cbn [binv bfinished]; [intros (vs & _ & _ & ->)|intros (vs & v0 & m & _ & _ & _ & _ & _ & _ & _ & ->)|discriminate];
  intros _; match goal with |- context [(?a * one_row)%nat] => generalize (a * one_row)%nat; intros; lia end.
Qed.

(** a row that becomes a pivot was not in the span of the pivots before *)
Lemma cas_new P v0 m dr r c P' : pivots_ok p ncols P -> rinv k p ncl ncols P v0 m (Cas dr r) ->
  row_step k p ncl ncols P (Cas dr r) = Some (P', DonePiv c) -> ~ span p (pset_of P) v0.
Proof.
  intros HPv (c0 & r' & b & Er & Hpr & HC & Hc & L & B & Hz & HS & (a & Ha) & (y & Hy) & Hb) E Hv. subst r. cbn [row_step fst] in E.
  destruct (P c0) as [q|] eqn:Ep; [discriminate|].
  assert (Hd : span p (pset_of P) (dv dr)). { eapply span_eq; [apply (span_sub p _ _ _ Hv HS)|]. intros j. exists 0. ring. }
  apply (lead_in_span p ncols P (dv dr) c0 HPv Hd); [intros j Hj; rewrite Hz by assumption; reflexivity| |assumption].
  intros H0. specialize (Hy c0). rewrite H0 in Hy. rewrite (pivot_lead p ncols c0 _ Hpr) in Hy. pose proof p31.
  destruct Hy as (x & Hx). assert (x <= 0 \/ 1 <= x) as [|] by lia; nia.
Qed.

Lemma row_step_shape P s P' c : row_step k p ncl ncols P s = Some (P', DonePiv c) -> (exists dr r, s = Cas dr r) \/ s = DonePiv c.
Proof.
  destruct s as [r|i dr n|dr r| |c']; cbn [row_step]; intros E.
  - destruct r as [|t r]; [discriminate|]. destruct (scatter ncols (t :: r)); discriminate.
  - exfalso. destruct (i <? ncols)%nat; [destruct (col_step k p (P i) i dr); discriminate|]. destruct n; [discriminate|]. destruct (gather_row k ncl (S n) dr) as [[|[c0 x0] r]|]; try discriminate. cbn [obind] in E.
    destruct (x0 =? 1); [discriminate|]. destruct (normalize_row k p ((c0, x0) :: r)); discriminate.
  - left. eauto.
  - discriminate.
  - right. congruence.
Qed.
Lemma row_step_todo P s P' r : row_step k p ncl ncols P s <> Some (P', Todo r).
Proof.
  destruct s as [r'|i dr n|dr r'| |c']; cbn [row_step]; intros E.
  - destruct r' as [|t r']; [discriminate|]. destruct (scatter ncols (t :: r')); discriminate.
  - destruct (i <? ncols)%nat; [destruct (col_step k p (P i) i dr); discriminate|]. destruct n; [discriminate|]. destruct (gather_row k ncl (S n) dr) as [[|[c0 x0] r0]|]; try discriminate. cbn [obind] in E.
    destruct (x0 =? 1); [discriminate|]. destruct (normalize_row k p ((c0, x0) :: r0)); discriminate.
  - destruct r' as [|t r']; [discriminate|]. destruct (P (fst t)); discriminate.
  - discriminate.
  - discriminate.
Qed.
Lemma rinv_fin P v0 m s : finished s = true -> rinv k p ncl ncols P v0 m s -> rinv k p ncl ncols P v0 0 s.
Proof. destruct s; cbn [finished rinv]; try discriminate; auto. Qed.
Lemma v0_span i mul v0 : (forall j, eqp p (v0 j) (- combine_rows (block tr i) mul j)) -> span p (inl (map rv (block tr i))) v0.
Proof.
  intros H. eapply span_eq; [apply (span_scale p _ (-1)), (combine_in_span p (block tr i) mul)|]. intros j. rewrite H. exists 0. ring.
Qed.
Lemma v0_comb i mul v0 (A : vec -> Prop) : (forall j, eqp p (v0 j) (- combine_rows (block tr i) mul j)) -> span p A v0 -> span p A (combine_rows (block tr i) mul).
Proof. intros H Hv. eapply span_eq; [apply (span_scale p _ (-1)); exact Hv|]. intros j. rewrite H. exists 0. ring. Qed.

Lemma blk_step_ok i rand P mu s : 0 <= i < nblocks nrl -> (forall j, 0 <= rand j) -> pivots_ok p ncols P -> (forall c, (c < ncl)%nat -> P c <> None) ->
  binv P i mu s ->
  exists P' s' mu', blk_step k p ncl ncols tr i rand P s = Some (P', s') /\ binv P' i mu' s' /\
  (bfinished s = false -> bfinished s' = true \/ (mu' < mu)%nat) /\ (bfinished s = true -> s' = s) /\ le_pivs P P' /\ pivots_ok p ncols P' /\
  (forall c r, P' c = Some r -> P c = Some r \/ span p (por (pset_of P) (inl (map rv (block tr i)))) (rv r)).
Proof.
  intros Hi Hr HPv Hncl HI. destruct (blk_len_ok nrl ltac:(lia) i Hi) as (_ & HL & _). pose proof p31 as Hp.
  assert (HB : (0 < budget ncols)%nat) by (unfold budget; lia).
  destruct s as [b|b mul rs|l]; cbn [blk_step].
  - destruct HI as (vs & HG & Hb & ->). rewrite blk_len_u by lia. destruct (Z.ltb_spec b (blk_len nrl i)) as [Hlt|Hge].
    + destruct (draw_ok k p nrl i rand ltac:(lia) ltac:(lia) Hi Hr) as (mul & -> & Hmul). cbn [obind].
      destruct (combined_ok i mul Hi Hmul) as (dr & -> & L & B & V). cbn [obind].
      exists P, (Bwork b mul (Red 0 dr 0)), (Z.to_nat (blk_len nrl i - b - 1) * one_row + 2 + (budget ncols - 1))%nat. split; [reflexivity|]. split; [|split; [intros _; right|split; [discriminate|split; [apply le_pivs_refl|split; [assumption|auto]]]]].
      * exists vs, (dv dr), (budget ncols - 1)%nat. split; [assumption|]. split; [lia|]. split; [assumption|]. split; [|split; [assumption|split; [exact I|split; [lia|reflexivity]]]].
        cbn [rinv]. split; [|split; [|split]].
        -- split; [lia|]. split; [assumption|]. split; [intros j Hj; lia|]. split; [|reflexivity]. intros j. specialize (B j). destruct k; cbn [kb]; lia.
        -- apply span_veq0. intros j. unfold vzero. exists 0. ring.
        -- intros j Hj. lia.
        -- exists O. split; [lia|]. split; [intros; lia|]. split; [left; lia|]. unfold budget. lia.
      * replace (Z.to_nat (blk_len nrl i - b)) with (S (Z.to_nat (blk_len nrl i - b - 1))) by lia. cbn [Nat.mul].
        set (x := (Z.to_nat (blk_len nrl i - b - 1) * one_row)%nat). unfold one_row. lia.
    + exists P, (Bend None), O. split; [reflexivity|]. split; [|split; [intros _; left; reflexivity|split; [discriminate|split; [apply le_pivs_refl|split; [assumption|auto]]]]].
      cbn [binv]. intros r Hin. destruct HG as (G1 & G2 & G3).
      apply (full_block p (pset_of P) (map rv (block tr i)) vs HP G2).
      * intros v Hv. apply G3. assumption.
      * intros v Hv. apply G3. assumption.
      * rewrite map_length, block_length by lia. lia.
      * apply in_map. assumption.
  - destruct HI as (vs & v0 & m & HG & Hb & Hmul & HI & HV & HS & Hm & ->).
    assert (Hsp := v0_span i mul v0 HV).
    assert (Step : finished rs = false -> exists P' s' mu', (let? q := row_step k p ncl ncols P rs in Some (fst q, Bwork b mul (snd q))) = Some (P', s') /\ binv P' i mu' s' /\
      (bfinished (Bwork b mul rs) = false -> bfinished s' = true \/ (mu' < Z.to_nat (blk_len nrl i - b - 1) * one_row + 2 + (if finished rs then 0 else m))%nat) /\
      (bfinished (Bwork b mul rs) = true -> s' = Bwork b mul rs) /\ le_pivs P P' /\ pivots_ok p ncols P' /\
      (forall c r, P' c = Some r -> P c = Some r \/ span p (por (pset_of P) (inl (map rv (block tr i)))) (rv r))).
    { intros Hf. destruct (row_step_ok k p ncl ncols P v0 m rs HP HK HR HPv Hncl (proj1 HM) HI) as (P' & s' & m' & E & I' & Hdec & _ & HLe & HPv' & HG').
      rewrite E. cbn [obind fst snd]. set (m2 := if finished s' then O else m').
      assert (Hm2 : (m2 < m)%nat). { unfold m2. pose proof (rinv_pos _ _ _ _ _ _ _ _ HI Hf). destruct (Hdec Hf) as [F|F]; [rewrite F; assumption|destruct (finished s'); lia]. }
      exists P', (Bwork b mul s'), (Z.to_nat (blk_len nrl i - b - 1) * one_row + 2 + (if finished s' then 0 else m2))%nat. split; [reflexivity|]. split; [|split; [|split; [discriminate|split; [assumption|split; [assumption|]]]]].
      - exists vs, v0, m2. split; [eapply ghost_mono; eassumption|]. split; [assumption|]. split; [assumption|].
        split; [unfold m2; destruct (finished s') eqn:Ef; [eapply rinv_fin; eassumption|assumption]|]. split; [assumption|]. split; [|split; [lia|reflexivity]].
        destruct s' as [r|i' dr n|dr r| |c]; try exact I; [eapply row_step_todo; eassumption|].
        destruct (row_step_shape _ _ _ _ E) as [(dr & r & ->)| ->]; [|discriminate].
        pose proof (cas_new P v0 m dr r c P' HPv HI E) as Hn. intros Hv. apply Hn. eapply span_mono; [|exact Hv]. intros u Hu. apply HG. assumption.
      - intros _. right. rewrite Hf. unfold m2 in *. destruct (finished s'); lia.
      - intros c r Hc. destruct (HG' c r Hc) as [|Hq]; [auto|right]. eapply span_mono; [|exact Hq]. intros u [Hu| ->]; [apply span_in; left; assumption|].
        eapply span_mono; [|exact Hsp]. intros w Hw. apply span_in. right. assumption. }
    destruct rs as [r|i' dr n|dr r| |c]; try (apply Step; reflexivity); clear Step.
    + exists P, (Bend (Some mul)), O. split; [reflexivity|]. split; [|split; [intros _; left; reflexivity|split; [discriminate|split; [apply le_pivs_refl|split; [assumption|auto]]]]].
      cbn [binv]. split; [assumption|]. eapply v0_comb; [eassumption|exact HI].
    + destruct HI as (_ & HIs). exists P, (Bidle (b + 1)), (Z.to_nat (blk_len nrl i - (b + 1)) * one_row + 1)%nat. split; [reflexivity|]. split; [|split; [intros _; right|split; [discriminate|split; [apply le_pivs_refl|split; [assumption|auto]]]]].
      * exists (v0 :: vs). split; [|split; [lia|reflexivity]]. destruct HG as (G1 & G2 & G3). split; [cbn [length]; lia|]. split; [split; assumption|].
        intros v [<-|Hv]; [split; assumption|apply G3; assumption].
      * cbn [finished]. replace (blk_len nrl i - (b + 1)) with (blk_len nrl i - b - 1) by lia. lia.
  - exists P, (Bend l), mu. split; [reflexivity|]. split; [assumption|]. split; [discriminate|]. split; [reflexivity|]. split; [apply le_pivs_refl|]. split; [assumption|auto].
Qed.

(** ** All blocks *)
Definition total (i : Z) : nat := (Z.to_nat (blk_len nrl i) * one_row + 1)%nat.
Definition psinv (cnt : nat -> nat) (s : pshared) : Prop :=
  pivots_ok p ncols (ps_pivs s) /\ le_pivs rr (ps_pivs s) /\
  (forall c r, ps_pivs s c = Some r -> span p (gens rr tr) (rv r)) /\
  length (ps_blks s) = Z.to_nat (nblocks nrl) /\
  forall t b, nth_error (ps_blks s) t = Some b -> exists mu, binv (ps_pivs s) (Z.of_nat t) mu b /\ (bfinished b = true \/ (mu + cnt t <= total (Z.of_nat t))%nat).
Lemma psys_step_ok cnt e s : (forall j, 0 <= snd e j) -> psinv cnt s ->
  exists s', psys_step k p ncl ncols tr e s = Some s' /\ psinv (fun u => if (u =? fst e)%nat then S (cnt u) else cnt u) s'.
Proof.
  intros Hr (HPv & HL & HG & Hlen & HB). unfold psys_step. destruct e as [t rand]. cbn [fst snd] in *. destruct (nth_error (ps_blks s) t) as [b|] eqn:Et.
  - destruct (HB t b Et) as (mu & HI & HF).
    assert (Ht : (t < length (ps_blks s))%nat) by (apply nth_error_Some; congruence).
    assert (Hi : 0 <= Z.of_nat t < nblocks nrl) by lia.
    destruct (blk_step_ok (Z.of_nat t) rand (ps_pivs s) mu b Hi Hr HPv) as (P' & b' & mu' & -> & HI' & Hdec & Hfin & HL' & HPv' & HG'); [|assumption|].
    { intros c Hc. eapply le_pivs_none; [exact HL|]. apply HM. assumption. }
    cbn [obind fst snd]. eexists. split; [reflexivity|]. unfold psinv. cbn [ps_pivs ps_blks]. split; [assumption|]. split; [eapply le_pivs_trans; eassumption|].
    split; [|split; [rewrite lset_length; assumption|]].
    + intros c r Hc. destruct (HG' c r Hc) as [Hc'|Hsp]; [eauto|]. eapply span_mono; [|exact Hsp].
      intros u [(c2 & r2 & E2 & ->)|Hu]; [eauto|]. apply in_map_iff in Hu. destruct Hu as (r2 & <- & Hr2). apply span_in. right. exists r2. split; [eapply block_in; eassumption|reflexivity].
    + intros t' b2. rewrite nth_error_lset. destruct (Nat.eqb_spec t' t) as [->|Hne]; cbn [andb].
      * rewrite (proj2 (Nat.ltb_lt _ _) Ht). intros [= <-]. exists mu'. split; [assumption|].
        destruct (bfinished b) eqn:Ef; [left; rewrite Hfin by reflexivity; assumption|]. destruct (Hdec eq_refl) as [Hd|Hd]; [left; assumption|right].
        destruct HF as [HF|HF]; [discriminate|]. lia.
      * intros Et'. destruct (HB t' b2 Et') as (m1 & I1 & F1). exists m1. split; [eapply binv_mono; eassumption|assumption].
  - exists s. split; [reflexivity|]. split; [assumption|]. split; [assumption|]. split; [assumption|]. split; [assumption|].
    intros t' b' Et'. destruct (Nat.eqb_spec t' t) as [->|]; [congruence|]. apply HB. assumption.
Qed.
Lemma psys_run_ok : forall evs cnt s, (forall e j, In e evs -> 0 <= snd e j) -> psinv cnt s ->
  exists s', psys_run k p ncl ncols tr evs s = Some s' /\ psinv (fun u => (cnt u + count_occ Nat.eq_dec (map fst evs) u)%nat) s'.
Proof.
  induction evs as [|e es IH]; intros cnt s Hr HI; cbn [psys_run].
  - exists s. split; [reflexivity|]. destruct HI as (H1 & H2 & H3 & H4 & H5). do 4 (split; [assumption|]). intros t b Et. destruct (H5 t b Et) as (mu & ? & ?).
    exists mu. cbn. rewrite Nat.add_0_r. auto.
  - destruct (psys_step_ok cnt e s) as (s1 & -> & I1); [intros j; apply Hr; left; reflexivity|assumption|]. cbn [obind].
    destruct (IH _ _ (fun e' j He => Hr e' j (or_intror He)) I1) as (s2 & -> & I2). exists s2. split; [reflexivity|]. destruct I2 as (H1 & H2 & H3 & H4 & H5). do 4 (split; [assumption|]).
    intros u b Eu. destruct (H5 u b Eu) as (mu & ? & H6). exists mu. split; [assumption|].
    destruct H6 as [H6|H6]; [left; assumption|right]. cbn [map count_occ]. destruct (Nat.eqb_spec u (fst e)) as [Eut|Eut]; destruct (Nat.eq_dec (fst e) u); try congruence; lia.
Qed.
Lemma init_psinv : psinv (fun _ => O) (init_pshared rr tr).
Proof.
  destruct HM as (H1 & H2 & H3 & H4). split; [assumption|]. split; [apply le_pivs_refl|]. split; [|split; [apply repeat_length|]].
  - intros c r Hc. apply span_in. left. exists c, r. auto.
  - cbn [init_pshared ps_blks ps_pivs]. intros t b Et. apply nth_error_rep in Et. destruct Et as (-> & Ht).
    assert (Hi : 0 <= Z.of_nat t < nblocks nrl) by lia. destruct (blk_len_ok nrl ltac:(lia) (Z.of_nat t) Hi) as (_ & HL & _).
    exists (total (Z.of_nat t)). split; [|right; lia]. exists []. split; [|split; [lia|unfold total; rewrite Z.sub_0_r; reflexivity]].
    split; [reflexivity|]. split; [exact I|intros v []].
Qed.
Lemma prun_ok evs : (forall e j, In e evs -> 0 <= snd e j) ->
  exists s, psys_run k p ncl ncols tr evs (init_pshared rr tr) = Some s /\ psinv (count_occ Nat.eq_dec (map fst evs)) s.
Proof. intros Hr. destruct (psys_run_ok evs (fun _ => O) (init_pshared rr tr) Hr init_psinv) as (s & E & I). exists s. auto. Qed.
Lemma penough cnt s : psinv cnt s -> (forall t, (t < Z.to_nat (nblocks nrl))%nat -> (total (Z.of_nat t) <= cnt t)%nat) -> forallb bfinished (ps_blks s) = true.
Proof.
  intros (H1 & H2 & H3 & H4 & H5) Hc. apply forallb_forall. intros b Hin. apply In_nth_error in Hin. destruct Hin as (t & Et).
  destruct (H5 t b Et) as (mu & HI & [HF|HF]); [assumption|]. destruct (bfinished b) eqn:Ef; [reflexivity|].
  apply binv_pos in HI; [|assumption]. assert (t < length (ps_blks s))%nat by (apply nth_error_Some; congruence). specialize (Hc t ltac:(lia)). lia.
Qed.

(** ** After all blocks *)
Lemma collected P : pivots_ok p ncols P -> le_pivs rr P ->
  exists Q, interreduce k p ncl ncols (ncols - ncl) (drop_old ncl P) = Some (rows_desc ncl Q (ncols - ncl)) /\
  reduced_family p ncols Q /\ (forall c, Q c <> None -> (ncl <= c < ncols)%nat) /\
  (forall v, span p (pset_of Q) v <-> span p (pset_of P) v /\ forall c, (c < ncl)%nat -> eqp p (v c) 0) /\
  same_span p (pset_of P) (fun v => pset_of rr v \/ pset_of Q v).
Proof.
  intros HPv HLe. destruct HM as (Hle & Hrr & Hrok & _).
  assert (HPd : pivots_ok p ncols (drop_old ncl P)). { intros c r. unfold drop_old. destruct (c <? ncl)%nat; [discriminate|apply HPv]. }
  destruct (interreduce_ok k p ncl ncols HK HR (ncols - ncl) (drop_old ncl P)) as (l & Q & El & Q1 & Q2 & Q3 & Q4 & Q5 & Q6); auto; [lia| | |].
  - intros c r Hc Ec. exfalso. destruct (HPd c r Ec) as (_ & _ & HL & r' & -> & _). specialize (HL (c, 1) (or_introl eq_refl)). cbn in HL. lia.
  - intros c. unfold drop_old. destruct (Nat.ltb_spec c ncl); [congruence|auto].
  - exists Q. split; [rewrite El, Q6; reflexivity|].
    assert (Hdomlo : forall c, Q c <> None -> (ncl <= c)%nat).
    { intros c Hc. destruct (Nat.lt_ge_cases c ncl) as [Hl|]; [|assumption]. exfalso. apply Hc, Q3. unfold drop_old. destruct (Nat.ltb_spec c ncl); [reflexivity|lia]. }
    assert (Hdom : forall c, Q c <> None -> (ncl <= c < ncols)%nat).
    { intros c Hc. split; [auto|]. destruct (Q c) as [r|] eqn:E; [|contradiction]. destruct (Q1 c r E) as (_ & _ & HL & r' & -> & _). apply (HL (c, 1)). left. reflexivity. }
    split; [split; [assumption|intros c r E; apply Q2; [apply Hdomlo; congruence|assumption]]|]. split; [assumption|].
    assert (HPg : forall v, span p (pset_of (drop_old ncl P)) v -> span p (pset_of P) v).
    { intros v. apply span_mono. intros u (c & r & E & ->). unfold drop_old in E. destruct (c <? ncl)%nat; [discriminate|]. apply span_in. exists c, r. auto. }
    split.
    + intros v. rewrite <- (Q4 v). split.
      * intros Hv. split; [auto|]. intros c Hc. apply (span_at p _ v c Hv). intros u (c' & r & E & ->). assert (E' := E). unfold drop_old in E. destruct (Nat.ltb_spec c' ncl); [discriminate|].
        rewrite (pivot_below p ncols c' r) by (eauto; lia). reflexivity.
      * intros (Hv & Hz). apply (span_restrict p ncols P v ncl HPv Hv). auto.
    + intros v. split; apply span_mono; intros u.
      * intros (c & r & E & ->). destruct (Nat.lt_ge_cases c ncl) as [Hl|Hg].
        -- apply span_in. left. destruct (rr c) as [q|] eqn:Er; [|exfalso; apply (proj1 (Hrr c) Hl); assumption]. exists c, q. split; [assumption|]. apply HLe in Er. congruence.
        -- assert (Hu : span p (pset_of (drop_old ncl P)) (rv r)). { apply span_in. exists c, r. unfold drop_old. destruct (Nat.ltb_spec c ncl); [lia|auto]. }
           apply Q4 in Hu. eapply span_mono; [|exact Hu]. intros w Hw. apply span_in. right. assumption.
      * intros [Hu|Hu]; [|apply HPg, Q4, span_in; assumption]. destruct Hu as (c & r & E & ->). apply span_in. exists c, r. auto.
Qed.
(** membership of a row in the span of the pivots is decidable *)
Lemma row_in_span_dec P r : pivots_ok p ncols P -> input_row p ncols r -> span p (pset_of P) (rv r) \/ ~ span p (pset_of P) (rv r).
Proof.
  intros HPv (ND & HC & HL & _). pose proof p31 as Hp.
  destruct (scatter_ok p ncols r ltac:(lia) ND HC HL) as (dr & _ & L & V & B).
  destruct (reduce_known_ok k p ncols 0 0 P dr HK HR HPv) as (dr' & o & _ & L' & B' & _ & ZP & SP & Ho); auto; [lia|intros; lia|intros; lia|].
  destruct o as [q|].
  - right. intros Hv. destruct Ho as (Hne & C2 & V2 & T2).
    assert (Hd : span p (pset_of P) (dv dr')). { eapply span_eq; [apply (span_sub p _ _ _ Hv SP)|]. intros j. rewrite V. exists 0. ring. }
    assert (H0 : forall j, eqp p (dv dr' j) 0). { apply (span_pivots_zero p ncols P _ HPv Hd). intros c Hc. rewrite ZP by (auto; lia). reflexivity. }
    destruct q as [|t q]; [contradiction|]. specialize (H0 (fst t)). apply eqp_0_small in H0; [|apply B']. rewrite <- V2 in H0.
    apply (canon_rv p (t :: q) (fst t)); [assumption|left; reflexivity|assumption].
  - left. eapply span_eq; [exact SP|]. intros j. rewrite Ho, V. exists 0. ring.
Qed.

Lemma block_in_span_dec P i : pivots_ok p ncols P -> all_in p (pset_of P) (block tr i) \/ ~ all_in p (pset_of P) (block tr i).
Proof.
  intros HPv. assert (HI : forall r, In r (block tr i) -> input_row p ncols r) by (intros r Hr; apply HM; eapply block_in; eassumption).
  unfold all_in. induction (block tr i) as [|r l IH]; [left; intros r []|].
  destruct IH as [IH|IH]; [intros q Hq; apply HI; right; assumption| |right; intros H; apply IH; intros q Hq; apply H; right; assumption].
  destruct (row_in_span_dec P r HPv (HI r (or_introl eq_refl))) as [H|H]; [left; intros q [<-|Hq]; auto|right; intros H'; apply H, H'; left; reflexivity].
Qed.
Lemma blocks_dec P : pivots_ok p ncols P -> forall n, (forall t, (t < n)%nat -> all_in p (pset_of P) (block tr (Z.of_nat t))) \/ exists t, (t < n)%nat /\ ~ all_in p (pset_of P) (block tr (Z.of_nat t)).
Proof.
  intros HPv. induction n as [|n [IH|(t & Ht & IH)]]; [left; intros; lia| |right; exists t; split; [lia|assumption]].
  destruct (block_in_span_dec P (Z.of_nat n) HPv) as [H|H]; [left|right; exists n; split; [lia|assumption]].
  intros t Ht. destruct (Nat.eq_dec t n) as [->|]; [assumption|apply IH; lia].
Qed.
End Run.

(** ** The blocks are a partition of the rows *)
Lemma blocks_prefix (tr : list srow) : Z.of_nat (length tr) < 2 ^ 31 -> forall m, (m <= Z.to_nat (nblocks (Z.of_nat (length tr))))%nat ->
  concat (map (fun t => block tr (Z.of_nat t)) (seq 0 m)) = firstn (Z.to_nat (Z.min (Z.of_nat m * rpb (Z.of_nat (length tr))) (Z.of_nat (length tr)))) tr.
Proof.
  intros Hn. set (n := Z.of_nat (length tr)) in *. destruct (rpb_ok n ltac:(lia)) as (H1 & H2 & H3 & H4 & H5 & H6).
  induction m as [|m IH]; intros Hm; [replace (Z.to_nat _) with O by lia; reflexivity|].
  rewrite seq_S, map_app, concat_app, IH by lia. cbn [map concat Nat.add]. rewrite app_nil_r.
  assert (Hi : 0 <= Z.of_nat m < nblocks n) by lia. destruct (blk_len_ok n ltac:(lia) (Z.of_nat m) Hi) as (L1 & L2 & L3).
  unfold block. fold n. rewrite blk_start_ok by lia. rewrite L1.
  replace (Z.of_nat (S m)) with (Z.of_nat m + 1) by lia.
  assert (Hle : Z.of_nat m * rpb n <= n) by nia. rewrite (Z.min_l (Z.of_nat m * rpb n) n Hle).
  set (a := Z.to_nat (Z.of_nat m * rpb n)). set (e := Z.min ((Z.of_nat m + 1) * rpb n) n) in *.
  replace (Z.to_nat (e - Z.of_nat m * rpb n)) with (Z.to_nat e - a)%nat by (unfold a; lia).
  assert (Ha : (a <= Z.to_nat e)%nat) by (unfold a; lia).
  rewrite <- (firstn_skipn a (firstn (Z.to_nat e) tr)). rewrite firstn_firstn, Nat.min_l by assumption. f_equal. symmetry. apply skipn_firstn_comm.
Qed.

(** ** Counting the draws that hide something *)
Fixpoint tuples (N : nat) (n : nat) : list (list Z) :=
  match n with O => [[]] | S n' => flat_map (fun m => map (cons (Z.of_nat m)) (tuples N n')) (seq 0 N) end.
Lemma flat_map_len {A B} (f : A -> list B) c l : (forall x, In x l -> length (f x) = c) -> length (flat_map f l) = (length l * c)%nat.
Proof. induction l as [|x l IH]; intros H; [reflexivity|]. cbn [flat_map length Nat.mul]. rewrite app_length, (H x (or_introl eq_refl)), IH by (intros y Hy; apply H; right; assumption). reflexivity. Qed.
Lemma tuples_len N n : length (tuples N n) = (N ^ n)%nat.
Proof.
  induction n as [|n IH]; [reflexivity|]. cbn [tuples Nat.pow]. rewrite (flat_map_len _ (N ^ n)%nat); [rewrite seq_length; reflexivity|].
  intros x _. rewrite map_length. assumption.
Qed.
Lemma tuples_in N : forall n mul, multipliers (Z.of_nat N) n mul -> In mul (tuples N n).
Proof.
  induction n as [|n IH]; intros mul (L & B); [destruct mul; [left; reflexivity|discriminate]|]. destruct mul as [|m mul]; [discriminate|].
  cbn [tuples]. apply in_flat_map. exists (Z.to_nat m). pose proof (B m (or_introl eq_refl)). split; [apply in_seq; lia|].
  rewrite Z2Nat.id by lia. apply in_map. apply IH. split; [cbn in L; lia|]. intros x Hx. apply B. right. assumption.
Qed.
Lemma collision {A B} (dec : forall x y : B, {x = y} + {x <> y}) (f : A -> B) (l : list A) : NoDup l ->
  NoDup (map f l) \/ exists x y, In x l /\ In y l /\ x <> y /\ f x = f y.
Proof.
  induction 1 as [|x l Hx ND IH]; [left; constructor|]. destruct IH as [IH|(a & b & Ha & Hb & Hne & E)]; [|right; exists a, b; cbn; auto].
  destruct (in_dec dec (f x) (map f l)) as [Hin|Hin]; [|left; constructor; assumption].
  apply in_map_iff in Hin. destruct Hin as (y & E & Hy). right. exists x, y. cbn. split; [auto|]. split; [auto|]. split; [intros ->; contradiction|auto].
Qed.
Definition without (k : nat) (l : list Z) : list Z := firstn k l ++ skipn (S k) l.
Lemma without_mult N n k mul : (k < n)%nat -> multipliers N n mul -> multipliers N (n - 1) (without k mul).
Proof.
  intros Hk (L & B). unfold without. split; [rewrite app_length, firstn_length, skipn_length; lia|]. intros m Hm. apply B.
  apply in_app_or in Hm. destruct Hm as [Hm|Hm]; [rewrite <- (firstn_skipn k mul)|rewrite <- (firstn_skipn (S k) mul)]; apply in_or_app; auto.
Qed.
Lemma combine_diff : forall (rows : list srow) a b k r, nth_error rows k = Some r -> length a = length rows -> length b = length rows -> without k a = without k b ->
  forall j, combine_rows rows a j - combine_rows rows b j = (nth k a 0 - nth k b 0) * rv r j.
Proof.
  induction rows as [|r0 rows IH]; intros a b k r E La Lb Hw j; [destruct k; discriminate|].
  destruct a as [|x a]; [discriminate|]. destruct b as [|y b]; [discriminate|]. cbn [length] in La, Lb. cbn [combine_rows].
  destruct k as [|k]; cbn [nth_error nth] in *.
  - injection E as <-. unfold without in Hw. cbn [firstn skipn app] in Hw. subst b. ring.
  - unfold without in Hw. cbn [firstn skipn app] in Hw. injection Hw as -> Hw.
    specialize (IH a b k r E ltac:(lia) ltac:(lia) Hw j). cbn [nth]. lia.
Qed.
Lemma without_inj k a b : length a = length b -> without k a = without k b -> nth k a 0 = nth k b 0 -> a = b.
Proof.
  revert a b. induction k as [|k IH]; intros [|x a] [|y b] L W E; cbn in L; try discriminate; try reflexivity; unfold without in W; cbn [firstn skipn app nth] in *.
  - congruence.
  - injection W as -> W. f_equal. apply IH; [lia|assumption|assumption].
Qed.
Lemma many_draws p N (A : vec -> Prop) (rows : list srow) (L : list (list Z)) : prime p -> 0 <= N <= p -> NoDup L ->
  (forall mul, In mul L -> multipliers N (length rows) mul /\ span p A (combine_rows rows mul)) ->
  N ^ (Z.of_nat (length rows) - 1) < Z.of_nat (length L) -> all_in p A rows.
Proof.
  intros HP HN ND HL Hbig r Hr. apply In_nth_error in Hr. destruct Hr as (k & Ek).
  assert (Hk : (k < length rows)%nat) by (apply nth_error_Some; congruence).
  destruct (collision (list_eq_dec Z.eq_dec) (without k) L ND) as [ND'|(a & b & Ha & Hb & Hne & E)].
  - exfalso. assert (HI : incl (map (without k) L) (tuples (Z.to_nat N) (length rows - 1))).
    { intros w Hw. apply in_map_iff in Hw. destruct Hw as (mul & <- & Hm). apply tuples_in. rewrite Z2Nat.id by lia. apply without_mult; [assumption|]. apply HL. assumption. }
    pose proof (NoDup_incl_length ND' HI) as HLen. rewrite map_length, tuples_len in HLen.
    replace (Z.of_nat (length rows) - 1) with (Z.of_nat (length rows - 1)) in Hbig by lia.
    apply inj_le in HLen. rewrite Nat2Z.inj_pow, Z2Nat.id in HLen by lia. lia.
  - destruct (HL a Ha) as ((La & Ba) & Sa). destruct (HL b Hb) as ((Lb & Bb) & Sb).
    assert (Hd : ~ eqp p (nth k a 0 - nth k b 0) 0).
    { intros H0. apply Hne. apply (without_inj k); [lia|assumption|]. apply (eqp_small p).
      - assert (Hka : (k < length a)%nat) by lia. specialize (Ba (nth k a 0) (nth_In a 0 Hka)). lia.
      - assert (Hkb : (k < length b)%nat) by lia. specialize (Bb (nth k b 0) (nth_In b 0 Hkb)). lia.
      - destruct H0 as (x & H0). exists x. lia. }
    destruct (inv_exists p _ HP Hd) as (y & Hy).
    eapply span_eq; [apply (span_scale p _ y), (span_sub p _ _ _ Sa Sb)|]. intros j. cbv beta.
    rewrite (combine_diff rows a b k r Ek La Lb E j), Z.mul_assoc, Hy. exists 0. ring.
Qed.
