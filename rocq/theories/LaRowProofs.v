(** Row level: column loop, extraction, normalisation, scatter. *)
From Coq Require Import ZArith Arith List Bool Lia Znumtheory Setoid Morphisms Sorted.
From Verif Require Import ModInvModel ModInvProofs LinSpec LaSpec LaModel LaProofs.
Import ListNotations.
Open Scope Z_scope.


(** number of nonzero entries among the first i columns *)
Fixpoint nzc (i : nat) (dr : list Z) : nat :=
  match i, dr with S i, d :: t => ((if Z.eqb d 0 then 0 else 1) + nzc i t)%nat | _, _ => O end.
Lemma nzc_ext i : forall a b, length a = length b -> (forall j, (j < i)%nat -> dv a j = dv b j) -> nzc i a = nzc i b.
Proof.
  induction i as [|i IH]; intros [|x a] [|y b] L H; cbn in *; try lia. rewrite (IH a b).
  - specialize (H O ltac:(lia)). cbn in H. subst. reflexivity.
  - lia.
  - intros j Hj. apply (H (S j)). lia.
Qed.
Lemma nzc_S i : forall dr, (i < length dr)%nat -> nzc (S i) dr = (nzc i dr + if Z.eqb (dv dr i) 0 then 0 else 1)%nat.
Proof.
  induction i as [|i IH]; intros [|x a] H; cbn [length] in H; try lia.
  - cbn. destruct a; destruct (x =? 0); reflexivity.
  - change (nzc (S (S i)) (x :: a)) with ((if Z.eqb x 0 then 0 else 1) + nzc (S i) a)%nat. rewrite IH by lia. cbn [nzc]. change (dv (x :: a) (S i)) with (dv a i). lia.
Qed.
Lemma nzc_0 i : forall dr, (forall j, (j < i)%nat -> dv dr j = 0) -> nzc i dr = O.
Proof.
  induction i as [|i IH]; intros [|x a] H; cbn [nzc]; auto. pose proof (H O ltac:(lia)) as H0. cbn in H0. subst.
  rewrite IH; [reflexivity|]. intros j Hj. apply (H (S j)). lia.
Qed.
Lemma nzc_0_inv i : forall dr, nzc i dr = O -> forall j, (j < i)%nat -> dv dr j = 0.
Proof.
  induction i as [|i IH]; intros dr H j Hj; [lia|]. destruct dr as [|x a]; [destruct j; reflexivity|].
  cbn [nzc] in H. destruct (Z.eqb_spec x 0); [|lia]. destruct j as [|j]; [assumption|]. apply (IH a); lia.
Qed.

(** ** Extraction *)
Lemma collect_spec k p : (p <= 2 ^ cfbits k) -> forall dr i, (forall j, 0 <= dv dr j < p) ->
  (forall j, rv (collect k i dr) j = if (i <=? j)%nat then dv dr (j - i)%nat else 0) /\
  StronglySorted lt (map fst (collect k i dr)) /\
  (forall t, In t (collect k i dr) -> 0 < snd t < p /\ (i <= fst t < i + length dr)%nat /\ snd t = dv dr (fst t - i)%nat) /\
  length (collect k i dr) = nzc (length dr) dr.
Proof.
  intros Hp. induction dr as [|d dr IH]; intros i H.
  - cbn. repeat split; try constructor; try contradiction. intros j. destruct (i <=? j)%nat; [|reflexivity]. destruct (j - i)%nat; reflexivity.
  - destruct (IH (S i)) as (R & S1 & T & L); [intros j; apply (H (S j))|].
    assert (Hd := H O). cbn in Hd. cbn [collect length nzc].
    destruct (Z.eqb_spec d 0) as [E|E].
    + subst d. split; [|split; [assumption|split; [|rewrite L; reflexivity]]].
      * intros j. rewrite R. destruct (Nat.leb_spec (S i) j); destruct (Nat.leb_spec i j); try lia.
        -- replace (j - i)%nat with (S (j - S i)) by lia. reflexivity.
        -- replace (j - i)%nat with O by lia. reflexivity.
      * intros t Ht. destruct (T t Ht) as (? & ? & ?). split; [assumption|]. split; [lia|]. replace (fst t - i)%nat with (S (fst t - S i)) by lia. assumption.
    + rewrite (Z.mod_small d) by lia. split; [|split; [|split; [|cbn [length]; rewrite L; reflexivity]]].
      * intros j. cbn [rv fst snd]. rewrite R. destruct (Nat.eqb_spec i j).
        -- subst. rewrite Nat.leb_refl, Nat.sub_diag. destruct (Nat.leb_spec (S j) j); [lia|]. cbn. lia.
        -- destruct (Nat.leb_spec (S i) j); destruct (Nat.leb_spec i j); try lia.
           replace (j - i)%nat with (S (j - S i)) by lia. cbn. reflexivity.
      * cbn [map fst]. constructor; [assumption|]. apply Forall_forall. intros c Hc. apply in_map_iff in Hc. destruct Hc as (t & <- & Ht). apply T in Ht. lia.
      * intros t [<-|Ht]; cbn [fst snd].
        -- split; [lia|]. split; [lia|]. rewrite Nat.sub_diag. reflexivity.
        -- destruct (T t Ht) as (? & ? & ?). split; [assumption|]. split; [lia|]. replace (fst t - i)%nat with (S (fst t - S i)) by lia. assumption.
Qed.
Lemma dv_skipn n : forall dr j, dv (skipn n dr) j = dv dr (n + j)%nat.
Proof. induction n as [|n IH]; intros [|x dr] j; cbn [skipn plus]; auto. - destruct j; reflexivity. - rewrite IH. reflexivity. Qed.
Lemma nzc_skip n : forall dr, nzc (length (skipn n dr)) (skipn n dr) = (nzc (length dr) dr - nzc n dr)%nat.
Proof.
  induction n as [|n IH]; intros [|x dr]; cbn [skipn length nzc]; try lia. rewrite IH.
  assert (nzc n dr <= nzc (length dr) dr)%nat.
  { clear. revert dr. induction n as [|n IH]; intros [|y dr]; cbn [nzc length]; try lia. specialize (IH dr). lia. }
  destruct (x =? 0); lia.
Qed.
Lemma gather_row_ok k p ncl n dr : p <= 2 ^ cfbits k -> (forall j, 0 <= dv dr j < p) -> (forall j, (j < ncl)%nat -> dv dr j = 0) ->
  nzc (length dr) dr = n -> exists r, gather_row k ncl n dr = Some r /\ canon p r /\ (forall j, rv r j = dv dr j) /\
  (forall t, In t r -> (ncl <= fst t < length dr)%nat) /\ length r = n.
Proof.
  intros Hp Hb Hz Hn. unfold gather_row.
  destruct (collect_spec k p Hp (skipn ncl dr) ncl) as (R & S1 & T & L); [intros j; rewrite dv_skipn; apply Hb|].
  assert (Hl : length (collect k ncl (skipn ncl dr)) = n).
  { rewrite L, nzc_skip. rewrite (nzc_0 ncl) by assumption. lia. }
  rewrite Hl, Nat.leb_refl. eexists. split; [reflexivity|]. split; [split; [assumption|intros t Ht; apply T; assumption]|].
  split; [|split; [|assumption]].
  - intros j. rewrite R. destruct (Nat.leb_spec ncl j); [rewrite dv_skipn; f_equal; lia|]. symmetry. apply Hz. assumption.
  - intros t Ht. destruct (T t Ht) as (_ & ? & _). rewrite skipn_length in *. lia.
Qed.
Lemma sorted_nodup l : StronglySorted lt l -> NoDup l.
Proof.
  induction 1 as [|a l HS IH HF]; constructor; [|assumption]. intros Hin. rewrite Forall_forall in HF. specialize (HF _ Hin). lia.
Qed.
Lemma canon_rv p r j : canon p r -> (rv r j <> 0 <-> In j (map fst r)).
Proof.
  intros (S1 & H). split.
  - intros Hn. destruct (in_dec Nat.eq_dec j (map fst r)); [assumption|]. exfalso. apply Hn, rv_notin. assumption.
  - intros Hin. apply in_map_iff in Hin. destruct Hin as (t & <- & Ht). rewrite rv_in by (auto using sorted_nodup). specialize (H t Ht). lia.
Qed.
Lemma sorted_same_set l : StronglySorted lt l -> forall l', StronglySorted lt l' -> (forall j : nat, In j l <-> In j l') -> l = l'.
Proof.
  induction 1 as [|a l HS IH HF]; intros l' HS' Hi.
  - destruct l' as [|b l']; [reflexivity|]. exfalso. apply (proj2 (Hi b)). left; reflexivity.
  - inversion HS' as [|b l2 HS2 HF2]; subst. { exfalso. apply (proj1 (Hi a)). left; reflexivity. }
    rewrite Forall_forall in HF, HF2. assert (a = b).
    { destruct (proj1 (Hi a) (or_introl eq_refl)) as [E|E]; [congruence|]. destruct (proj2 (Hi b) (or_introl eq_refl)) as [E2|E2]; [congruence|].
      specialize (HF _ E2). specialize (HF2 _ E). lia. }
    subst b. f_equal. apply IH; [assumption|]. intros j. split; intros Hj.
    + destruct (proj1 (Hi j) (or_intror Hj)) as [E|E]; [|assumption]. specialize (HF _ Hj). lia.
    + destruct (proj2 (Hi j) (or_intror Hj)) as [E|E]; [|assumption]. specialize (HF2 _ Hj). lia.
Qed.
Lemma canon_eq p r r' : canon p r -> canon p r' -> (forall j, rv r j = rv r' j) -> r = r'.
Proof.
  intros H H' HE. assert (Hc : map fst r = map fst r').
  { apply sorted_same_set; [apply H|apply H'|]. intros j. rewrite <- (canon_rv p r j H), <- (canon_rv p r' j H'), HE. reflexivity. }
  assert (N : NoDup (map fst r)) by (apply sorted_nodup, H). assert (N' : NoDup (map fst r')) by (apply sorted_nodup, H').
  assert (V : forall t, In t r -> rv r (fst t) = snd t) by (intros; apply rv_in; assumption).
  assert (V' : forall t, In t r' -> rv r' (fst t) = snd t) by (intros; apply rv_in; assumption).
  clear H H' N N'. remember (rv r) as f eqn:Ef. remember (rv r') as f' eqn:Ef'. clear Ef Ef'.
  revert r' Hc V'. induction r as [|t r IH]; intros [|t' r'] Hc V'; cbn [map] in Hc; try discriminate; [reflexivity|].
  injection Hc as E1 E2. f_equal.
  - destruct t as [a b], t' as [a' b']. cbn in E1. subst a'. f_equal. specialize (V (a, b) (or_introl eq_refl)). specialize (V' (a, b') (or_introl eq_refl)).
    cbn in V, V'. rewrite <- V, <- V'. apply HE.
  - apply IH; auto. + intros; apply V; right; assumption. + intros; apply V'; right; assumption.
Qed.
Lemma canon_lead p r t : canon p (t :: r) -> forall j, (j < fst t)%nat -> rv (t :: r) j = 0.
Proof.
  intros (S1 & _) j Hj. apply rv_notin. cbn [map]. inversion S1; subst. rewrite Forall_forall in H2. intros [E|Hin]; [lia|]. specialize (H2 _ Hin). lia.
Qed.
Lemma canon_pivot p ncols r t : 2 <= p -> canon p (t :: r) -> snd t = 1 -> (forall u, In u (t :: r) -> (fst u < ncols)%nat) -> pivot_row p ncols (fst t) (t :: r).
Proof.
  intros Hp (S1 & H) H1 Hl. split; [apply sorted_nodup; assumption|]. split; [intros u Hu; specialize (H u Hu); lia|]. split; [assumption|].
  exists r. split; [destruct t; cbn in *; congruence|]. intros u Hu. cbn [map] in S1. inversion S1; subst. rewrite Forall_forall in H4. apply H4. apply in_map. assumption.
Qed.

(** ** Scatter *)
Lemma scatter_ok p ncols r : 2 <= p -> NoDup (map fst r) -> cfs_ok p r -> (forall t, In t r -> (fst t < ncols)%nat) ->
  exists dr, scatter ncols r = Some dr /\ length dr = ncols /\ (forall j, dv dr j = rv r j) /\ (forall j, 0 <= dv dr j < p).
Proof.
  intros Hp ND HC HL. unfold scatter. destruct (scatter_upds r (repeat 0 ncols) ND) as (dr & E & (L & N & U)).
  { intros t Ht. rewrite repeat_length. auto. }
  rewrite repeat_length in L. exists dr. split; [assumption|]. split; [assumption|].
  assert (V : forall j, dv dr j = rv r j).
  { intros j. destruct (in_dec Nat.eq_dec j (map fst r)) as [Hin|Hn].
    - apply in_map_iff in Hin. destruct Hin as (t & <- & Ht). specialize (U t Ht). injection U as <-. symmetry. apply rv_in; assumption.
    - rewrite N, rv_notin, dv_repeat by assumption. reflexivity. }
  split; [assumption|]. intros j. destruct (in_dec Nat.eq_dec j (map fst r)) as [Hin|Hn].
  - apply in_map_iff in Hin. destruct Hin as (t & <- & Ht). rewrite V, rv_in by assumption. apply HC. assumption.
  - rewrite V, rv_notin by assumption. lia.
Qed.

(** ** Normalisation *)
Lemma scale_blocks_map k p inv : forall n r, length r = (4 * n)%nat -> scale_blocks k p inv r = Some (map (scale1 k p inv) r).
Proof.
  induction n as [|n IH]; intros r H; [destruct r; [reflexivity|cbn in H; lia]|].
  destruct r as [|a [|b [|c [|d r]]]]; cbn [length] in H; try lia. cbn [scale_blocks]. rewrite IH by lia. reflexivity.
Qed.
Lemma scale_row_map k p inv r : scale_row k p inv r = Some (map (scale1 k p inv) r).
Proof.
  unfold scale_row, preloop. destruct (skipn_multiple UNROLL r ltac:(unfold UNROLL; lia)) as (n & Hn).
  rewrite (scale_blocks_map k p inv n) by exact Hn. cbn [obind]. rewrite <- map_app, firstn_skipn. reflexivity.
Qed.
Lemma kinv_ok k p x : prime p -> kern_ok k p -> 0 < x < p -> exists y, kinv k x p = Some y /\ 0 < y < p /\ eqp p (y * x) 1.
Proof.
  intros HP HK Hx. assert (Hd : ~ (p | x)) by (intros Hd; apply Z.divide_pos_le in Hd; lia).
  destruct HK as (H2 & HK).
  assert (exists y, kinv k x p = Some y /\ 0 < y < p /\ (y * x) mod p = 1) as (y & E & Hy & Hm).
  { destruct k; cbn [kinv].
    - apply (mod_p_inverse_prime 16 8); try assumption; try lia.
    - apply (mod_p_inverse_prime 32 16); try assumption; lia.
    - apply (mod_p_inverse_prime 64 32); try assumption; lia.
    - apply (mod_p_inverse_prime 64 32); try assumption; lia. }
  exists y. split; [assumption|]. split; [assumption|]. apply eqp_iff_mod; [lia|]. rewrite Hm. symmetry. apply Z.mod_small. lia.
Qed.
Lemma rv_scale k p inv r j : p <> 0 -> eqp p (rv (map (scale1 k p inv) r) j) (inv * rv r j).
Proof.
  intros Hp. induction r as [|t r IH]; cbn [map rv]; [exists 0; ring|]. rewrite IH. cbn [scale1 fst snd].
  destruct (fst t =? j)%nat.
  - rewrite (eqp_mod p (snd t * inv)) by assumption. exists 0. ring.
  - exists 0. ring.
Qed.
Lemma map_fst_scale k p inv r : map fst (map (scale1 k p inv) r) = map fst r.
Proof. rewrite map_map. reflexivity. Qed.
(** normalize_row of any row with a nonzero first coefficient *)
Lemma normalize_row_ok k p t r : prime p -> kern_ok k p -> 0 < snd t < p ->
  exists r' y, normalize_row k p (t :: r) = Some ((fst t, 1) :: r') /\ 0 < y < p /\ eqp p (y * snd t) 1 /\
  map fst r' = map fst r /\ r' = map (scale1 k p y) r /\
  (forall j, eqp p (rv ((fst t, 1) :: r') j) (y * rv (t :: r) j)).
Proof.
  intros HP HK Ht. destruct (kinv_ok k p (snd t) HP HK Ht) as (y & E & Hy & Hm). destruct t as [c x]. cbn [fst snd] in *.
  unfold normalize_row. rewrite E. cbn [obind]. rewrite scale_row_map. cbn [obind map]. 
  exists (map (scale1 k p y) r), y. split; [reflexivity|]. split; [assumption|]. split; [assumption|]. split; [apply map_fst_scale|]. split; [reflexivity|].
  intros j. cbn [rv fst snd]. rewrite rv_scale by lia. destruct (c =? j)%nat.
  - rewrite Z.mul_add_distr_l, Hm. reflexivity.
  - exists 0. ring.
Qed.
Lemma scale_nonzero p x y : prime p -> 0 < x < p -> 0 < y < p -> 0 < (x * y) mod p < p.
Proof.
  intros HP Hx Hy. assert (2 <= p) by apply (prime_ge_2 p HP). pose proof (Z.mod_pos_bound (x * y) p ltac:(lia)).
  assert ((x * y) mod p <> 0); [|lia]. intros E. apply Z.mod_divide in E; [|lia]. apply prime_mult in E; [|assumption].
  destruct E as [E|E]; apply Z.divide_pos_le in E; lia.
Qed.
Lemma normalize_canon k p t r : prime p -> kern_ok k p -> canon p (t :: r) ->
  exists r' y, normalize_row k p (t :: r) = Some ((fst t, 1) :: r') /\ 0 < y < p /\ eqp p (y * snd t) 1 /\
  canon p ((fst t, 1) :: r') /\ map fst r' = map fst r /\
  (forall j, eqp p (rv ((fst t, 1) :: r') j) (y * rv (t :: r) j)).
Proof.
  intros HP HK (S1 & H). destruct (normalize_row_ok k p t r HP HK) as (r' & y & E & Hy & Hm & M & R & V); [apply H; left; reflexivity|].
  exists r', y. split; [assumption|]. split; [assumption|]. split; [assumption|]. split; [|split; assumption].
  split; [cbn [map fst] in *; rewrite M; assumption|]. assert (2 <= p) by apply (prime_ge_2 p HP).
  intros u [<-|Hu]; [cbn; lia|]. subst r'. apply in_map_iff in Hu. destruct Hu as (w & <- & Hw). cbn [scale1 snd].
  apply scale_nonzero; auto. apply H. right. assumption.
Qed.

(** ** Column loop *)
Definition red_inv (k : kern) (p : Z) (ncols i : nat) (dr : list Z) (n : nat) : Prop :=
  (i <= ncols)%nat /\ length dr = ncols /\ (forall j, (j < i)%nat -> 0 <= dv dr j < p) /\
  (forall j, 0 <= dv dr j < kb k p (S i)) /\ n = nzc i dr.
Lemma col_step_inv k p ncols pivs i dr n : kern_ok k p -> kroom k p (S ncols) -> pivots_ok p ncols pivs ->
  red_inv k p ncols i dr n -> (i < ncols)%nat ->
  exists dr' b, col_step k p (pivs i) i dr = Some (dr', b) /\ red_inv k p ncols (S i) dr' (if b then S n else n) /\
  (forall j, (j < i)%nat -> dv dr' j = dv dr j) /\ (pivs i <> None -> dv dr' i = 0) /\
  span p (pset_of pivs) (fun j => dv dr j - dv dr' j).
Proof.
  intros HK HR HPv (Hi & HL & Hlt & Hb & Hn) Hic.
  destruct (col_step_ok k p ncols (S i) (pivs i) i dr HK) as (dr' & b & E & L' & B' & Lt' & I' & Hbt & Hz & (e & HE)); auto.
  { eapply kroom_le; [|eassumption|eassumption]. lia. }
  exists dr', b. split; [assumption|]. split; [|split; [assumption|split; [assumption|]]].
  - split; [lia|]. split; [assumption|]. split.
    + intros j Hj. destruct (Nat.eq_dec j i) as [->|]; [assumption|]. rewrite Lt' by lia. apply Hlt. lia.
    + split; [assumption|]. rewrite nzc_S by lia. rewrite (nzc_ext i dr' dr) by (auto; lia). rewrite <- Hn.
      destruct (Z.eqb_spec (dv dr' i) 0) as [E0|E0]; destruct b; try (clear Hbt; lia); exfalso.
      * apply (proj1 Hbt eq_refl). assumption.
      * apply Hbt in E0. discriminate.
  - destruct (pivs i) as [r|] eqn:Ep.
    + eapply span_eq with (u := fun j => e * rv r j).
      * apply span_scale. apply span_in. exists i, r. auto.
      * intros j. rewrite HE. exists 0. ring.
    + apply span_veq0. intros j. rewrite HE. exists (0). unfold vzero. ring.
Qed.
Lemma red_loop_ok k p ncols pivs : kern_ok k p -> kroom k p (S ncols) -> pivots_ok p ncols pivs ->
  forall cnt i dr n, (i + cnt = ncols)%nat -> red_inv k p ncols i dr n ->
  exists dr' n', red_loop k p pivs cnt i dr n = Some (dr', n') /\ red_inv k p ncols ncols dr' n' /\
  (forall j, (j < i)%nat -> dv dr' j = dv dr j) /\ (forall j, (i <= j < ncols)%nat -> pivs j <> None -> dv dr' j = 0) /\
  span p (pset_of pivs) (fun j => dv dr j - dv dr' j).
Proof.
  intros HK HR HPv. induction cnt as [|cnt IH]; intros i dr n Hc HI; cbn [red_loop].
  - exists dr, n. replace i with ncols in * by lia. split; [reflexivity|]. split; [assumption|]. split; [auto|]. split; [lia|].
    apply span_veq0. intros j. exists 0. unfold vzero. ring.
  - destruct (col_step_inv k p ncols pivs i dr n HK HR HPv HI) as (d1 & b & -> & I1 & L1 & Z1 & S1); [lia|]. cbn [obind fst snd].
    destruct (IH (S i) d1 (if b then S n else n)) as (d2 & n2 & -> & I2 & L2 & Z2 & S2); [lia|assumption|].
    exists d2, n2. split; [reflexivity|]. split; [assumption|]. split; [intros j Hj; rewrite L2, L1 by lia; reflexivity|]. split.
    + intros j Hj Hp. destruct (Nat.eq_dec j i) as [->|]; [rewrite L2 by lia; auto|]. apply Z2; [lia|assumption].
    + eapply span_eq; [apply (span_add _ _ _ _ S1 S2)|]. intros j. exists 0. ring.
Qed.

(** ** The whole reduction of one dense row *)
Definition bits_ok k p : kern_ok k p -> p <= 2 ^ cfbits k.
Proof. intros (_ & H). destruct k; cbn [cfbits]; lia. Qed.
(** A start row: entries below p, zero before column dpiv. All columns before ncl are pivot columns or lie before dpiv. *)
Lemma reduce_known_ok k p ncols ncl dpiv pivs dr : kern_ok k p -> kroom k p (S ncols) -> pivots_ok p ncols pivs ->
  (dpiv <= ncols)%nat -> length dr = ncols -> (forall j, 0 <= dv dr j < p) -> (forall j, (j < dpiv)%nat -> dv dr j = 0) ->
  (forall j, (dpiv <= j < ncl)%nat -> (j < ncols)%nat -> pivs j <> None) ->
  exists dr' o, reduce_known k p pivs ncl ncols dpiv dr = Some (dr', o) /\ length dr' = ncols /\ (forall j, 0 <= dv dr' j < p) /\
  (forall j, (j < dpiv)%nat -> dv dr' j = 0) /\ (forall j, pivs j <> None -> (dpiv <= j)%nat -> dv dr' j = 0) /\
  span p (pset_of pivs) (fun j => dv dr j - dv dr' j) /\
  match o with None => forall j, dv dr' j = 0
             | Some r => r <> [] /\ canon p r /\ (forall j, rv r j = dv dr' j) /\ (forall t, In t r -> (ncl <= fst t < ncols)%nat /\ (dpiv <= fst t)%nat /\ pivs (fst t) = None) end.
Proof.
  intros HK HR HPv Hd HL Hb Hz Hpl. assert (Hp2 : 2 <= p) by apply HK. unfold reduce_known.
  destruct (red_loop_ok k p ncols pivs HK HR HPv (ncols - dpiv) dpiv dr 0) as (dr' & n' & -> & (_ & L' & B' & _ & N') & LT & ZP & SP).
  - lia.
  - split; [assumption|]. split; [assumption|]. split; [auto|]. split; [|symmetry; apply nzc_0; assumption].
    intros j. specialize (Hb j). pose proof (kern_pp k p HK). assert (p * p <= kb k p (S dpiv)) by (destruct k; cbn [kb]; nia). nia.
  - cbn [obind fst snd].
    assert (Hb' : forall j, 0 <= dv dr' j < p).
    { intros j. destruct (Nat.lt_ge_cases j ncols); [apply B'; assumption|]. rewrite dv_overflow by lia. lia. }
    assert (Hz' : forall j, (j < dpiv)%nat -> dv dr' j = 0) by (intros j Hj; rewrite LT by assumption; auto).
    assert (Hzp : forall j, pivs j <> None -> (dpiv <= j)%nat -> dv dr' j = 0).
    { intros j Hj1 Hj2. destruct (Nat.lt_ge_cases j ncols); [apply ZP; [lia|assumption]|]. apply dv_overflow. lia. }
    destruct n' as [|n'].
    + exists dr', None. split; [reflexivity|]. do 5 (split; [assumption|]).
      intros j. destruct (Nat.lt_ge_cases j ncols); [|apply dv_overflow; lia]. apply (nzc_0_inv ncols); [symmetry; assumption|assumption].
    + destruct (gather_row_ok k p ncl (S n') dr' (bits_ok k p HK) Hb') as (r & E & C & V & T & Lr).
      * intros j Hj. destruct (Nat.lt_ge_cases j dpiv); [auto|]. destruct (Nat.lt_ge_cases j ncols); [|apply dv_overflow; lia]. apply Hzp; [|assumption]. apply Hpl; lia.
      * rewrite L'. symmetry. assumption.
      * rewrite E. cbn [obind]. exists dr', (Some r). split; [reflexivity|]. do 5 (split; [assumption|]). split; [destruct r; [discriminate|discriminate]|].
        split; [assumption|]. split; [assumption|]. intros t Ht. rewrite L' in T. split; [apply T; assumption|].
        assert (Hnz : dv dr' (fst t) <> 0). { rewrite <- V. apply (canon_rv p); [assumption|]. apply in_map. assumption. }
        assert (Hge : (dpiv <= fst t)%nat). { destruct (Nat.lt_ge_cases (fst t) dpiv); [|assumption]. exfalso. auto. }
        split; [assumption|]. destruct (pivs (fst t)) eqn:Ep; [|reflexivity]. exfalso. apply Hnz. apply Hzp; [congruence|assumption].
Qed.
